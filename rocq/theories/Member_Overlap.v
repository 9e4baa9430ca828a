(** The overlap test of two member sets, and single changes. *)
From Coq Require Import List Arith Bool Lia.
From Verif Require Import Base Member_Model Member_Spec.
Import ListNotations.

Lemma hasIn : forall m x, has m x = true <-> In x m.
Proof.
  intros. unfold has. rewrite existsb_exists. split.
  - intros (y & A & B). apply Nat.eqb_eq in B. subst. auto.
  - intros. exists x. rewrite Nat.eqb_refl. auto.
Qed.

(** Whichever side is counted, it is the size of the intersection. *)
Lemma inter_le : forall a b, NoDup a -> length (filter (has b) a) <= length (filter (has a) b).
Proof.
  intros a b N. apply NoDup_incl_length.
  - apply NoDup_filter; auto.
  - intros x H. apply filter_In in H. destruct H as (A & B). apply filter_In. split; [apply hasIn; auto|apply hasIn; auto].
Qed.
Lemma inter_eq : forall a b, NoDup a -> NoDup b -> length (filter (has b) a) = length (filter (has a) b).
Proof. intros. apply Nat.le_antisymm; apply inter_le; auto. Qed.

Lemma majority_half : forall m, majority m <> 0 -> length m < 2 * majority m <= length m + 2.
Proof.
  intros m H. unfold majority in *. destruct (length m =? 0); [congruence|].
  pose proof (Nat.div_mod (length m) 2). pose proof (Nat.mod_upper_bound (length m) 2). lia.
Qed.
Lemma majority_0 : forall m, majority m = 0 <-> m = [].
Proof.
  intros m. unfold majority. destruct (Nat.eqb_spec (length m) 0) as [E|E].
  - split; auto. intros _. destruct m; auto; discriminate.
  - split; [intros; lia|]. intros ->. simpl in E. congruence.
Qed.
Lemma majorityOf_ge : forall m Q, majorityOf m Q -> majority m <= length Q.
Proof.
  intros m Q (_ & _ & L). destruct (Nat.eq_dec (majority m) 0) as [E|E]; [lia|].
  apply majority_half in E. lia.
Qed.

(** The elements of [b] outside [a]. *)
Definition out (a b : list nat) : list nat := filter (fun x => negb (has a x)) b.
Lemma out_len : forall a b, length (filter (has a) b) + length (out a b) = length b.
Proof.
  intros a b. unfold out. induction b as [|x b IH]; simpl; auto. destruct (has a x); simpl; lia.
Qed.
Lemma out_in : forall a b x, In x (out a b) <-> In x b /\ ~ In x a.
Proof.
  intros a b x. unfold out. rewrite filter_In. rewrite negb_true_iff, <- not_true_iff_false, hasIn. tauto.
Qed.

Lemma nodup_app : forall (a b : list nat), NoDup a -> NoDup b -> (forall x, In x a -> ~ In x b) -> NoDup (a ++ b).
Proof.
  induction a as [|x a IH]; intros b Na Nb D; simpl; auto. inversion Na; subst. constructor.
  - intros H. apply in_app_or in H. destruct H as [H|H]; auto. eapply D; [left; eauto|auto].
  - apply IH; auto. intros y Hy. apply D. right; auto.
Qed.

Lemma overlap_meets : forall cur new, NoDup cur -> NoDup new -> quorumsOverlap cur new = true -> meets cur new.
Proof.
  intros cur new Nc Nn H Q Q' HQ HQ'.
  destruct (existsb (has Q') Q) eqn:E.
  { apply existsb_exists in E. destruct E as (x & A & B). apply hasIn in B. eauto. }
  exfalso. pose proof (majorityOf_ge _ _ HQ) as G. pose proof (majorityOf_ge _ _ HQ') as G'.
  assert (D : forall x, In x Q -> ~ In x Q').
  { intros x A B. rewrite <- not_true_iff_false in E. apply E. apply existsb_exists. exists x. split; auto. apply hasIn; auto. }
  destruct HQ as (N1 & I1 & L1), HQ' as (N2 & I2 & L2).
  assert (U : length (Q ++ Q') <= length (cur ++ out cur new)).
  { apply NoDup_incl_length; [apply nodup_app; auto|]. intros x Hx. apply in_app_or in Hx. apply in_or_app.
    destruct Hx as [Hx|Hx]; auto. destruct (has cur x) eqn:Hc; [left; apply hasIn; auto|right]. apply out_in. split; auto.
    rewrite <- hasIn. congruence. }
  rewrite !app_length in U. pose proof (out_len cur new).
  unfold quorumsOverlap in H.
  destruct (majority cur =? 0) eqn:E0.
  { apply Nat.eqb_eq, majority_0 in E0. subst cur. assert (Q = []) by (destruct Q as [|x Q]; auto; destruct (I1 x); left; auto). subst Q. simpl in L1. lia. }
  destruct (majority new =? 0) eqn:E1.
  { apply Nat.eqb_eq, majority_0 in E1. subst new. assert (Q' = []) by (destruct Q' as [|x Q']; auto; destruct (I2 x); left; auto). subst Q'. simpl in L2. lia. }
  cbn [orb] in H. rewrite (inter_eq cur new) in H by auto. 
  destruct (length cur <? length new); apply Nat.ltb_lt in H; lia.
Qed.

Lemma changed_nodup : forall m ch new, NoDup m -> changed m ch = Some new -> NoDup new.
Proof.
  intros m [x|x] new N H; simpl in H.
  - injection H as <-. destruct (has m x) eqn:E; auto. apply nodup_app; auto.
    + repeat constructor; auto.
    + intros y A [<- |[]]. apply hasIn in A. congruence.
  - destruct (has m x); [|discriminate]. injection H as <-. apply NoDup_filter; auto.
Qed.

(** Exactness. *)
Lemma firstn_in : forall (l : list nat) k x, In x (firstn k l) -> In x l.
Proof. intros l k x H. rewrite <- (firstn_skipn k l). apply in_or_app; auto. Qed.
Lemma skipn_in : forall (l : list nat) k x, In x (skipn k l) -> In x l.
Proof. intros l k x H. rewrite <- (firstn_skipn k l). apply in_or_app; auto. Qed.
Lemma nodup_split : forall (l : list nat) k, NoDup l -> NoDup (firstn k l) /\ NoDup (skipn k l) /\ (forall x, In x (firstn k l) -> ~ In x (skipn k l)).
Proof.
  intros l. induction l as [|a l IH]; intros k N.
  - rewrite firstn_nil, skipn_nil. repeat split; auto; constructor.
  - destruct k as [|k]; simpl; [repeat split; auto; constructor|].
    inversion N; subst. destruct (IH k) as (A & B & C); auto. split; [constructor; auto; intros H; apply firstn_in in H; auto|].
    split; auto. intros x [<- |H] H'; [apply skipn_in in H'; auto|eapply C; eauto].
Qed.

(** From disjoint parts of two member sets, disjoint majorities. *)
Lemma split_majorities : forall cur new, NoDup cur -> NoDup new ->
  let i := length (filter (has cur) new) in
  1 <= majority cur -> 1 <= majority new ->
  majority cur + majority new <= length cur + length new - i ->
  exists Q Q', majorityOf cur Q /\ majorityOf new Q' /\ forall x, In x Q -> ~ In x Q'.
Proof.
  intros cur new Nc Nn i M1 M2 H.
  set (a := out new cur). set (b := out cur new). set (m := filter (has cur) new).
  pose proof (out_len new cur) as La. pose proof (out_len cur new) as Lb.
  rewrite (inter_eq cur new Nc Nn) in La. fold a in La. fold b in Lb. fold m in La, Lb. change i with (length m) in H.
  assert (H1 : length cur < 2 * majority cur) by (apply majority_half; lia).
  assert (H2 : length new < 2 * majority new) by (apply majority_half; lia).
  assert (B1 : majority cur <= length cur) by (unfold majority; destruct (Nat.eqb_spec (length cur) 0); [lia|]; pose proof (Nat.div_lt (length cur) 2); lia).
  assert (B2 : majority new <= length new) by (unfold majority; destruct (Nat.eqb_spec (length new) 0); [lia|]; pose proof (Nat.div_lt (length new) 2); lia).
  (* cur takes its own first, then k of the common ones; new takes its own and the rest *)
  set (k := majority cur - length a).
  assert (Na : NoDup a) by (apply NoDup_filter; auto). assert (Nb : NoDup b) by (apply NoDup_filter; auto).
  assert (Nm : NoDup m) by (apply NoDup_filter; auto).
  destruct (nodup_split m k Nm) as (S1 & S2 & S3).
  assert (Im : forall x, In x m <-> In x cur /\ In x new).
  { intros x. unfold m. rewrite filter_In, hasIn. tauto. }
  exists (a ++ firstn k m), (b ++ skipn k m). repeat split.
  - apply nodup_app; auto. intros x A B. apply out_in in A. apply firstn_in, Im in B. tauto.
  - intros x A. apply in_app_or in A. destruct A as [A|A]; [apply out_in in A; tauto|apply firstn_in, Im in A; tauto].
  - rewrite app_length, firstn_length. lia.
  - apply nodup_app; auto. intros x A B. apply out_in in A. apply skipn_in, Im in B. tauto.
  - intros x A. apply in_app_or in A. destruct A as [A|A]; [apply out_in in A; tauto|apply skipn_in, Im in A; tauto].
  - rewrite app_length, skipn_length. lia.
  - intros x A B. apply in_app_or in A, B. destruct A as [A|A], B as [B|B].
    + apply out_in in A, B. tauto.
    + apply out_in in A. apply skipn_in, Im in B. tauto.
    + apply out_in in B. apply firstn_in, Im in A. tauto.
    + eapply S3; eauto.
Qed.

Lemma meets_overlap : forall cur new, NoDup cur -> NoDup new -> meets cur new -> quorumsOverlap cur new = true.
Proof.
  intros cur new Nc Nn M. unfold quorumsOverlap.
  destruct (Nat.eqb_spec (majority cur) 0) as [E0|E0]; auto.
  destruct (Nat.eqb_spec (majority new) 0) as [E1|E1]; auto. cbn [orb].
  rewrite (inter_eq cur new) by auto.
  set (i := length (filter (has cur) new)).
  replace (if length cur <? length new then i else i) with i by (destruct (_ <? _); auto).
  destruct (Nat.ltb_spec (length cur + length new - i) (majority cur + majority new)) as [L|L]; auto.
  destruct (split_majorities cur new Nc Nn) as (Q & Q' & A & B & C); try lia.
  destruct (M Q Q' A B) as (x & X & Y). exfalso. eapply C; eauto.
Qed.

(** A set and that set with at most one member less. *)
Lemma near_meets : forall a b, incl b a -> length a <= S (length b) -> meets a b.
Proof.
  intros a b I L Q Q' (N1 & I1 & L1) (N2 & I2 & L2).
  destruct (existsb (has Q') Q) eqn:E.
  { apply existsb_exists in E. destruct E as (x & A & B). apply hasIn in B. eauto. }
  exfalso.
  assert (U : length (Q ++ Q') <= length a).
  { apply NoDup_incl_length.
    - apply nodup_app; auto. intros x A B. rewrite <- not_true_iff_false in E. apply E. apply existsb_exists. exists x. split; auto. apply hasIn; auto.
    - intros x H. apply in_app_or in H. destruct H; auto. }
  rewrite app_length in U. lia.
Qed.

Lemma changed_meets : forall m ch new, NoDup m -> changed m ch = Some new -> meets m new.
Proof.
  intros m [x|x] new N H; simpl in H.
  - injection H as <-. intros Q Q' HQ HQ'. destruct (has m x).
    + destruct (near_meets m m (incl_refl m)) with (Q := Q) (Q' := Q') as (y & A & B); auto; eauto.
    + destruct (near_meets (m ++ [x]) m) with (Q := Q') (Q' := Q) as (y & A & B); auto; eauto.
      * apply incl_appl, incl_refl.
      * rewrite app_length. simpl. lia.
  - destruct (has m x); [|discriminate]. injection H as <-. apply near_meets.
    + intros y Hy. apply filter_In in Hy. tauto.
    + change (length m <= length (x :: filter (fun y => negb (y =? x)) m)). apply NoDup_incl_length; auto.
      intros y Hy. destruct (Nat.eq_dec y x) as [->|E]; [left; auto|right]. apply filter_In. split; auto.
      destruct (Nat.eqb_spec y x); auto.
Qed.
