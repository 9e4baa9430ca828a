(** * One direction of one circuit, as a pipeline *)

From Coq Require Import ZArith List Bool Arith Lia.
From Verif Require Import Ckt_Model Ckt_Spec.
Import ListNotations.

(** what travels: a fragment or the notice of the end. *)
Definition item : Type := option Z.

(** front: taken by the user or waiting in the channel; with the pump; in the
    peer's channel; with the read loop; in the connection. *)
Record view : Type := mkV {
  vF : list item; vD : list item; vR : list item; vB : list item; vW : list item;
  vSent : list item; vCut : bool; vGap : bool; vUp : bool; vEnded : bool }.

Definition data (l : list item) : Prop := Forall (fun i => i <> None) l.

Inductive vstep : view -> view -> Prop :=
| v_append : forall f d r b w st cut gap en i,
    vstep (mkV f d r b w st cut gap true en) (mkV f d r b (w ++ [i]) (st ++ [i]) cut gap true en)
| v_first : forall f b w st cut gap up en,
    data b -> vstep (mkV f [] [] b w st cut gap up en) (mkV (f ++ b) [] [] [] w st cut gap up en)
| v_firstLost : forall f d r b w st cut gap up en,
    vstep (mkV f d r b w st cut gap up en) (mkV f d r [] w st cut true up en)
| v_boot : forall f w st gap up i,
    i <> None ->
    vstep (mkV f [] [] [] (i :: w) st false gap up false) (mkV f [] [] [i] w st false gap up false)
| v_in : forall f d r w st cut gap up en i,
    vstep (mkV f d r [] (i :: w) st cut gap up en) (mkV f d (r ++ [i]) [] w st cut gap up en)
| v_drop : forall f d r b w st cut gap up en i,
    vstep (mkV f d r b (i :: w) st cut gap up en) (mkV f d r b w st cut true up en)
| v_take : forall f r b w st gap up en i,
    i <> None ->
    vstep (mkV f [] (i :: r) b w st false gap up en) (mkV f [i] r b w st false gap up en)
| v_put : forall f d r b w st gap up en,
    vstep (mkV f d r b w st false gap up en) (mkV (f ++ d) [] r b w st false gap up en)
| v_dropD : forall f d r b w st gap up en,
    vstep (mkV f d r b w st false gap up en) (mkV f [] r b w st false true up en)
| v_cut : forall f d r b w st cut gap up en,
    vstep (mkV f d r b w st cut gap up en) (mkV f [] r b w st true gap up en)
| v_dropR : forall f d r b w st gap up en i,
    vstep (mkV f d (i :: r) b w st true gap up en) (mkV f d r b w st true gap up en)
| v_dropRgap : forall f d r b w st cut gap up en i,
    vstep (mkV f d (i :: r) b w st cut gap up en) (mkV f d r b w st cut true up en)
| v_end : forall f r b w st gap up en,
    vstep (mkV f [] (None :: r) b w st false gap up en) (mkV f [] r b w st true gap up true)
| v_gap : forall f d r b w st cut gap up en,
    vstep (mkV f d r b w st cut gap up en) (mkV f d r b w st cut true up en)
| v_down : forall f d r b w st cut gap up en,
    vstep (mkV f d r b w st cut gap up en) (mkV f d r b [] st cut gap false en).

Inductive vsteps : view -> view -> Prop :=
| vs_refl : forall v, vsteps v v
| vs_cons : forall a b c, vstep a b -> vsteps b c -> vsteps a c.

Lemma vs_one : forall a b, vstep a b -> vsteps a b.
Proof. intros. eapply vs_cons; [eassumption|apply vs_refl]. Qed.

Lemma vs_trans : forall a b c, vsteps a b -> vsteps b c -> vsteps a c.
Proof. intros a b c H. induction H; auto. intro K. eapply vs_cons; eauto. Qed.

(** ** Subsequences *)

Lemma sub_refl : forall (A : Type) (l : list A), subseq l l.
Proof. induction l; constructor; auto. Qed.

Lemma sub_app : forall (A : Type) (a b c d : list A), subseq a b -> subseq c d -> subseq (a ++ c) (b ++ d).
Proof.
  intros A a b c d H. revert c d. induction H; intros c d K; cbn.
  - induction l; cbn; [exact K|]. constructor. exact IHl.
  - constructor. auto.
  - constructor. auto.
Qed.

Lemma sub_trans : forall (A : Type) (b c : list A), subseq b c -> forall a, subseq a b -> subseq a c.
Proof.
  intros A b c H. induction H; intros a' K.
  - inversion K. constructor.
  - inversion K; subst; constructor; auto.
  - constructor. auto.
Qed.

Lemma sub_none : forall (A : Type) (l : list A), subseq [] l.
Proof. intros. constructor. Qed.

(** ** The invariant of a view *)

Record vinv (v : view) : Prop := mkVinv {
  viSub : subseq (vF v ++ vD v ++ vR v ++ vB v ++ vW v) (vSent v);
  viData : data (vF v) /\ data (vD v) /\ data (vB v);
  viAlone : vB v <> [] -> vD v = [] /\ vR v = [];
  viCutD : vCut v = true -> vD v = [];
  viOpen : vGap v = false -> vCut v = false ->
    exists t, vSent v = vF v ++ vD v ++ vR v ++ vB v ++ vW v ++ t /\ (vUp v = true -> t = []);
  viCut : vGap v = false -> vCut v = true -> exists t, vSent v = vF v ++ vB v ++ t;
  viEnd : vEnded v = true -> vCut v = true;
  viEnded : vGap v = false -> vEnded v = true ->
    vB v = [] /\ exists t, vSent v = vF v ++ None :: t }.

Lemma data_app : forall a b, data (a ++ b) <-> data a /\ data b.
Proof. intros. apply Forall_app. Qed.

Ltac sub_tac :=
  repeat first [apply sub_refl | apply sub_none | apply sub_app].

Lemma sub_drop1 : forall (i : item) a b s, subseq (a ++ i :: b) s -> subseq (a ++ b) s.
Proof.
  intros i a b s H. apply (sub_trans _ _ _ H). apply sub_app; [apply sub_refl|]. constructor. apply sub_refl.
Qed.

Lemma sub_dropMid : forall (a m b s : list item), subseq (a ++ m ++ b) s -> subseq (a ++ b) s.
Proof.
  intros a m b s H. apply (sub_trans _ _ _ H). apply sub_app; [apply sub_refl|].
  apply (sub_app _ [] m b b); [constructor|apply sub_refl].
Qed.

Lemma vstep_inv : forall a b, vstep a b -> vinv a -> vinv b.
Proof.
  intros a b H [S [D1 [D2 D3]] A C O K E G]; destruct H; cbn in *.
  - (* append *) constructor; cbn; auto.
    + rewrite !app_assoc in *. apply sub_app; [exact S|apply sub_refl].
    + intros g ct. destruct (O g ct) as [t [Ht Hu]]. exists []. split; [|reflexivity].
      rewrite (Hu eq_refl), !app_nil_r in Ht. rewrite Ht, !app_nil_r, !app_assoc. reflexivity.
    + intros g ct. destruct (K g ct) as [t Ht]. exists (t ++ [i]). rewrite Ht, <- !app_assoc. reflexivity.
    + intros g e. destruct (G g e) as [B [t Ht]]. split; [exact B|]. exists (t ++ [i]).
      rewrite Ht, <- app_assoc. reflexivity.
  - (* first *) constructor; cbn; auto.
    + rewrite <- app_assoc. exact S.
    + split; [|split]; [apply data_app; auto|constructor|constructor].
    + intros g ct. destruct (O g ct) as [t [Ht Hu]]. exists t. split; [|exact Hu].
      rewrite Ht, <- app_assoc. reflexivity.
    + intros g ct. destruct (K g ct) as [t Ht]. exists t. rewrite Ht, <- app_assoc. reflexivity.
    + intros g e. destruct (G g e) as [B [t Ht]]. split; [reflexivity|]. exists t. subst b.
      rewrite app_nil_r. exact Ht.
  - (* firstLost *) constructor; cbn; auto; try congruence.
    + rewrite !app_assoc in *. rewrite <- (app_assoc _ b w) in S. exact (sub_dropMid _ _ _ _ S).
    + split; [|split]; auto. constructor.
  - (* boot *) constructor; cbn; auto; try congruence.
    split; [|split]; auto; repeat constructor; auto.
  - (* in *) constructor; cbn; auto.
    + rewrite <- app_assoc. exact S.
    + congruence.
    + intros g ct. destruct (O g ct) as [t [Ht Hu]]. exists t. split; [|exact Hu].
      rewrite Ht, <- app_assoc. reflexivity.
  - (* drop *) constructor; cbn; auto; try congruence.
    rewrite !app_assoc in *. exact (sub_drop1 _ _ _ _ S).
  - (* take *) constructor; cbn; auto; try congruence.
    + split; [|split]; auto. repeat constructor. auto.
    + intro N. destruct (A N) as [_ Q]. discriminate.
  - (* put *) constructor; cbn; auto; try congruence.
    + rewrite <- app_assoc. exact S.
    + split; [|split]; auto; [apply data_app; auto|constructor].
    + intro N. destruct (A N). auto.
    + intros g ct. destruct (O g ct) as [t [Ht Hu]]. exists t. split; [|exact Hu].
      rewrite Ht, <- app_assoc. reflexivity.
    + intros g e. specialize (E e). discriminate.
  - (* dropD *) constructor; cbn; auto; try congruence.
    + exact (sub_dropMid _ _ _ _ S).
    + split; [|split]; auto. constructor.
    + intro N. destruct (A N). auto.
  - (* cut *) constructor; cbn; auto; try congruence.
    + exact (sub_dropMid _ _ _ _ S).
    + split; [|split]; auto. constructor.
    + intro N. destruct (A N). auto.
    + intros g _. destruct cut; [exact (K g eq_refl)|].
      destruct (O g eq_refl) as [t [Ht _]]. destruct b as [|b0 b'].
      * eexists. rewrite Ht. reflexivity.
      * destruct (A ltac:(discriminate)) as [-> ->]. exists (w ++ t). exact Ht.
  - (* dropR *) constructor; cbn; auto; try congruence.
    + rewrite !app_assoc in *. cbn in S. rewrite <- !app_assoc in S.
      rewrite app_assoc in S. cbn in S. apply sub_drop1 in S. rewrite !app_assoc in *. exact S.
    + intro N. destruct (A N). split; auto. discriminate.
  - (* dropRgap *) constructor; cbn; auto; try congruence.
    + rewrite !app_assoc in *. cbn in S. rewrite <- !app_assoc in S.
      rewrite app_assoc in S. cbn in S. apply sub_drop1 in S. rewrite !app_assoc in *. exact S.
    + intro N. destruct (A N). split; auto. discriminate.
  - (* end *)
    assert (B : b = []).
    { destruct b; [reflexivity|]. destruct (A ltac:(discriminate)). discriminate. }
    subst b. constructor; cbn; auto; try congruence.
    + exact (sub_drop1 _ _ _ _ S).
    + intros g _. destruct (O g eq_refl) as [t [Ht _]]. eexists. exact Ht.
    + intros g _. split; [reflexivity|]. destruct (O g eq_refl) as [t [Ht _]]. eexists. exact Ht.
  - (* gap *) constructor; cbn; auto; congruence.
  - (* down *) constructor; cbn; auto.
    + rewrite !app_assoc in *. rewrite app_nil_r. pose proof (sub_dropMid _ w [] _ ltac:(rewrite app_nil_r; exact S)) as Q.
      rewrite app_nil_r in Q. exact Q.
    + intros g ct. destruct (O g ct) as [t [Ht _]]. exists (w ++ t). split; [exact Ht|congruence].
Qed.

Lemma vsteps_inv : forall a b, vsteps a b -> vinv a -> vinv b.
Proof. intros a b H. induction H; auto. intro V. apply IHvsteps. exact (vstep_inv _ _ H V). Qed.
