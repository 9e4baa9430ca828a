(** The content-addressed store keeps at most MaxMemBlob blobs in memory; what
    a store that is opened again has. *)
From Coq Require Import List ZArith Bool Lia Arith.
From Verif Require Import Cas_Model Cas_Spec Cas_Proofs Cas_Files Cas_Calm Cas_More.
Import ListNotations.
Open Scope Z_scope.

Definition memInv (s : cas) : Prop :=
  NoDup (map fst (cMem s)) /\ incl (map fst (cMem s)) (cKeys s) /\ (length (cKeys s) <= cMax s)%nat.

Lemma findMem_none_fst : forall k l, findMem k l = None -> ~ In k (map fst l).
Proof.
  intros k l F I1. apply in_map_iff in I1 as ([k' d] & E & I1). cbn in E. subst k'.
  exact (findMem_none _ _ F d I1).
Qed.

Lemma putNth_incl : forall l i k x, In x l -> x <> nth i l [] -> In x (putNth i k l).
Proof.
  induction l as [|y l IH]; intros [|i] k x; cbn [putNth nth In]; try tauto.
  - intros [<-|Ix] NE; [congruence|auto].
  - intros [<-|Ix] NE; auto.
Qed.

Lemma putNth_self : forall l i k, (i < length l)%nat -> In k (putNth i k l).
Proof.
  induction l as [|y l IH]; intros [|i] k LT; cbn in *; auto; try lia. right. apply IH. lia.
Qed.

Lemma addMem_inv : forall p k d s s', memInv s -> addMem p k d s = Some s' -> memInv s' /\ cMax s' = cMax s.
Proof.
  intros p k d s s' (N1 & N2 & N3) A. split; [|destruct (addMem_spec _ _ _ _ _ A) as (_ & E & _); exact E].
  revert A. unfold addMem. destruct (Nat.eqb_spec (cMax s) 0) as [Z|Z].
  { intro E. injection E as <-. repeat apply conj; assumption. }
  set (mem := match findMem k (cMem s) with Some _ => cMem s | None => (k, d) :: cMem s end).
  assert (M1 : NoDup (map fst mem)).
  { subst mem. destruct (findMem k (cMem s)) eqn:F; [exact N1|]. cbn. constructor; [|exact N1].
    apply findMem_none_fst. exact F. }
  assert (M2 : forall x, In x (map fst mem) -> x = k \/ In x (cKeys s)).
  { subst mem. destruct (findMem k (cMem s)) eqn:F; [intros x Ix; right; apply N2; exact Ix|].
    cbn. intros x [<-|Ix]; [auto|right; apply N2; exact Ix]. }
  destruct (Nat.eqb_spec (length (cKeys s)) (cMax s)) as [FU|FU].
  - set (i := Nat.modulo p (length (cKeys s))). set (v := nth i (cKeys s) []).
    assert (LI : (i < length (cKeys s))%nat) by (apply Nat.mod_upper_bound; lia).
    destruct (findMem v mem); [|discriminate]. intro E. injection E as <-.
    unfold memInv. cbn [cMem cKeys cMax]. repeat apply conj.
    + apply NoDup_map_filter. exact M1.
    + intros x Ix. apply in_map_iff in Ix as (y & E & Iy). apply filter_In in Iy as [Iy NV].
      apply negb_true_iff, beq_neq in NV. subst x.
      destruct (M2 (fst y)) as [->|Ik]; [apply in_map; exact Iy|apply putNth_self; exact LI|].
      apply putNth_incl; [exact Ik|]. intro EE. apply NV. symmetry. exact EE.
    + rewrite putNth_length. exact N3.
  - intro E. injection E as <-. unfold memInv. cbn [cMem cKeys cMax]. repeat apply conj.
    + exact M1.
    + intros x Ix. apply in_or_app. destruct (M2 x Ix) as [->|Ik]; [right; left; reflexivity|auto].
    + rewrite app_length. cbn. lia.
Qed.

Section B.
Context (H : bytes -> key) (enc : bytes -> bytes) (dec : bytes -> option bytes) (W : nat).
Notation stp := (step H enc dec W).
Notation rn := (run H enc dec W).

Lemma verify_inv : forall fuel picks beg b found s s' n, memInv s ->
  verify fuel picks beg b found s = Some (s', n) -> memInv s' /\ cMax s' = cMax s.
Proof.
  induction fuel as [|fuel IH]; intros picks beg b found s s' n MS E; cbn [verify] in E; [discriminate|].
  destruct (Nat.leb (length b) 64); [injection E as <- <-; auto|].
  destruct (_ || _); [discriminate|]. destruct (findIdx _ _); [|discriminate].
  destruct (negb _); [discriminate|]. destruct (addMem _ _ _ s) as [s1|] eqn:A; [|discriminate].
  destruct (addMem_inv _ _ _ _ _ MS A) as [M1 E1]. destruct (IH _ _ _ _ _ _ _ M1 E). split; congruence.
Qed.

(** The last NewCASIndex allowed [m] blobs in memory. *)
Definition lastMax (max0 : nat) (w : world) (e : ev) : nat :=
  match e, wUp w with EOpen m _ _, None => m | _, _ => max0 end.

Definition BI (max0 : nat) (w : world) : Prop :=
  forall s, wUp w = Some s -> memInv s /\ cMax s = max0.

Lemma BI_step : forall w e m, BI m w -> BI (lastMax m w e) (stp w e).
Proof.
  intros w e m B s. unfold lastMax, step.
  destruct e as [b|pick|g k|g pick|pick j mm|mx vf picks]; destruct (wUp w) as [s0|] eqn:U;
    try (intro E; apply B; congruence).
  - destruct (cJob s0); [intro E; apply B; congruence|]. cbn [wUp]. intro E. injection E as <-. apply (B _ U).
  - destruct (B _ U) as [MS CM]. unfold appStep.
    destruct (cJob s0) as [[[b [|d r]] n]|]; try (cbn [apply_res wUp]; intro E; injection E as <-; split; assumption).
    destruct d as [|x d]; [discriminate|]. cbv zeta.
    destruct (negb _); [discriminate|].
    destruct (findMem _ (cMem s0)); [cbn [apply_res wUp]; intro E; injection E as <-; split; assumption|].
    destruct (addMem _ _ _ s0) as [s1|] eqn:A; [|discriminate].
    destruct (addMem_inv _ _ _ _ _ MS A) as [M1 E1].
    cbn [apply_res wUp]. intro E. injection E as <-. split; [exact M1|cbn [cMax]; congruence].
  - destruct (B _ U) as [MS CM]. destruct (existsb _ _); [intro E; apply B; congruence|]. unfold getStep.
    destruct (findIdx _ _); [destruct (findMem _ _)|]; cbn [apply_res wUp]; intro E; injection E as <-; split; assumption.
  - destruct (B _ U) as [MS CM]. unfold diskStep.
    destruct (cJob s0); [cbn [apply_res wUp]; intro E; injection E as <-; split; assumption|].
    destruct (find _ _) as [[g' e]|]; [|cbn [apply_res wUp]; intro E; injection E as <-; split; assumption].
    destruct (readAt _ _ _ _); [|discriminate]. destruct (dec _) as [d|]; [|discriminate].
    destruct (negb _); [discriminate|]. destruct (addMem _ _ _ s0) as [s1|] eqn:A; [|discriminate].
    destruct (addMem_inv _ _ _ _ _ MS A) as [M1 E1].
    cbn [apply_res wUp]. intro E. injection E as <-. split; [exact M1|cbn [cMax]; congruence].
  - destruct (appStep _ _ _ _ _ _). discriminate.
  - assert (M0 : forall es, memInv (Cas es [] [] mx [] None [])).
    { intro es. unfold memInv. cbn. split; [constructor|]. split; [intros x []|lia]. }
    unfold openStep, loadIndex. destruct (negb _); [discriminate|].
    destruct (loadIdx _ _ _ _) as [es|]; [|discriminate].
    destruct vf; [|cbn [apply_res wUp]; intro E; injection E as <-; split; [apply M0|reflexivity]].
    unfold verifyData. destruct (_ && _); [discriminate|].
    destruct (verify _ _ _ _ _ _) as [[s' n]|] eqn:V; [|discriminate].
    destruct (Nat.eqb _ _); [|discriminate]. cbn [apply_res wUp]. intro E. injection E as <-.
    exact (verify_inv _ _ _ _ _ _ _ _ (M0 es) V).
Qed.

(** The MaxMemBlob of the process that runs after [es]. *)
Fixpoint maxOf (max0 : nat) (w : world) (es : list ev) : nat :=
  match es with
  | [] => max0
  | e :: r => maxOf (lastMax max0 w e) (stp w e) r
  end.

Lemma BI_run : forall es w m, BI m w -> BI (maxOf m w es) (rn w es).
Proof.
  induction es as [|e es IH]; intros w m B; [exact B|]. cbn [run maxOf]. apply IH. apply BI_step. exact B.
Qed.

Section R.
Context (Okb : bytes -> Prop) (L : laws H enc dec W Okb).

Lemma run_app : forall a b w, rn w (a ++ b) = rn (rn w a) b.
Proof. induction a as [|e a IH]; intros b w; [reflexivity|]. cbn [app run]. apply IH. Qed.

Lemma run_Str : forall es w max picks, J H enc Okb w -> Str H enc w ->
  okrun stp Okb w (es ++ [EOpen max false picks]) -> J H enc Okb (rn w es) /\ Str H enc (rn w es).
Proof.
  induction es as [|e es IH]; intros w max picks JW SW OK; [auto|]. cbn [run app] in *. destruct OK as [O1 O2].
  destruct e as [b|pick|g k|g pick|pick j m|mx vf pk];
    try (eapply IH; [apply (J_step _ _ _ _ _ L); auto; congruence
                    |apply (Str_step _ _ _ _ _ L); auto; congruence|eassumption]).
  destruct O1 as [-> O1]. destruct w as [data index [s|] log].
  - cbn [step wUp] in *. eapply IH; eassumption.
  - pose proof JW as (LO & _). cbn [wLog wUp wIndex] in *. destruct (O1 eq_refl) as [ST|NO].
    + eapply IH; [apply (open_J _ _ _ _ _ L); assumption|apply (open_Str _ _ _ _ _ L); assumption|eassumption].
    + exfalso. apply Forall_app in NO as [_ NO]. inversion NO as [|? ? N1 _]; subst. apply N1. exact I.
Qed.

Lemma survives : forall es max picks g p d,
  okrun stp Okb blank (es ++ [EOpen max false picks]) ->
  wUp (rn blank es) = None -> (length (wIndex (rn blank es)) mod 64 = 0)%nat ->
  kept (wLog (rn blank es)) d -> given (wLog (rn blank es)) d -> fits enc W d ->
  exists l, wLog (rn blank (es ++ [EOpen max false picks; EGet g (H d); EDisk g p]))
            = l ++ [OGot g (H d) (Some d)].
Proof.
  intros es max picks g p d OK U M Kd Gd Fd.
  destruct (run_Str es blank max picks (J_blank _ _ _) (Str_blank _ _) OK) as [JW SW].
  rewrite run_app. destruct (rn blank es) as [data index up log]. cbn [wUp wIndex wLog] in *. subst up.
  destruct JW as (LO & _). unfold Str in SW. cbn [wUp wData wIndex wLog] in *.
  destruct (open_whole _ _ _ _ _ L max data index log (proj2 (proj2 LO)) SW M)
    as (rs & tail & D & X & ND & K & G & LI).
  cbn [run]. cbn [step wUp wData wIndex]. unfold openStep. rewrite LI. unfold apply_res.
  cbn [fold_left fst snd wData wIndex wUp wLog cWait existsb]. unfold getStep. cbn [cIdx cMem].
  destruct (findIdx_in (H d) (ents H enc 0 rs)) as (e & FX); [apply ents_in; auto|].
  rewrite FX. apply findIdx_some in FX as [FX1 FX2].
  destruct (ents_at _ _ _ _ _ L _ _ FX1) as (d' & r1 & r2 & E1 & E2).
  assert (d' = d).
  { apply (law_inj _ _ _ _ _ L); [apply LO, G; rewrite E1; apply in_or_app; right; left; reflexivity|apply LO; exact Gd|].
    rewrite <- FX2, E2. reflexivity. }
  subst d'. cbn [findMem find option_map fold_left fst snd wUp wData wIndex wLog].
  unfold diskStep. cbn [cJob cWait find fst]. rewrite Nat.eqb_refl.
  assert (RA : readAt W data (eBeg e) (eClen e) = Some (rec H enc d)).
  { rewrite E2. cbn [Cas_Proofs.ent eClen eBeg]. eapply (readAt_fits _ _ _ _ _ L); [|exact Fd].
    rewrite D, E1, recs_app. unfold recs at 2. cbn [map concat]. rewrite <- !app_assoc. reflexivity. }
  rewrite RA. unfold rec. rewrite skipn_app_exact by apply (hdr_length _ _ _ _ _ L).
  rewrite (law_dec _ _ _ _ _ L).
  assert (EU : eUlen e = wrap32 (Z.of_nat (length d))).
  { rewrite (proj2 (clen_ok _ _ _ _ _ L d (proj2 (proj2 LO) d Gd))), E2. reflexivity. }
  rewrite EU, Z.eqb_refl. cbn [negb].
  match goal with |- context [addMem p (eKey e) d ?s] => destruct (addMem_fresh p (eKey e) d s) as (s1 & AM & _) end.
  - unfold cacheOK. cbn. split; [constructor|]. split; [|lia]. intro k.
    split; [intros []|intro F; exfalso; apply F; reflexivity].
  - reflexivity.
  - rewrite AM. cbn [fold_left fst snd wUp wData wIndex wLog]. rewrite FX2. eexists. reflexivity.
Qed.

End R.
End B.
