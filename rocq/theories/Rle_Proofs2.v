From Coq Require Import List ZArith Lia Bool.
From Verif Require Import Base Rle_Model Rle_Spec Rle_Proofs.
Import ListNotations.
Open Scope Z_scope.

(** ** Histories *)

Definition rstep (s : rle) (o : lop) : res rle :=
  match o with
  | OpAdd t => AddTerm s t
  | OpTrunc k => Truncate s k
  | OpCompact b => CompactNewBeg s b
  end.

Lemma nondecr_tail : forall x l, nondecr (x :: l) -> nondecr l.
Proof. destruct l; simpl; tauto. Qed.

Lemma nondecr_Forall : forall l x, nondecr (x :: l) -> Forall (fun y => x <= y) l.
Proof.
  induction l; intros; constructor.
  - destruct H; auto.
  - destruct H. specialize (IHl _ H0). eapply Forall_impl; [|exact IHl]. simpl; intros; lia.
Qed.

Lemma nondecr_cons : forall l x, Forall (fun y => x <= y) l -> nondecr l -> nondecr (x :: l).
Proof. destruct l; simpl; intros; auto. inversion H; auto. Qed.

Lemma nondecr_app_snoc : forall l x, nondecr l -> (l = [] \/ last l x <= x) -> nondecr (l ++ [x]).
Proof.
  induction l as [|a l IH]; intros x Hn Hl; [simpl; auto|].
  destruct l as [|b l'].
  - simpl. destruct Hl; [discriminate|]. simpl in H. split; auto.
  - simpl in Hn. destruct Hn as [Hab Hn].
    change ((a :: b :: l') ++ [x]) with (a :: ((b :: l') ++ [x])).
    assert (nondecr ((b :: l') ++ [x])).
    { apply IH; auto. right. destruct Hl; [discriminate|]. exact H. }
    simpl in *. tauto.
Qed.

Lemma nondecr_firstn : forall n l, nondecr l -> nondecr (firstn n l).
Proof.
  induction n; intros [|a l] H; simpl; auto.
  apply nondecr_cons.
  - apply nondecr_Forall in H. rewrite Forall_forall in *. intros y Hy. apply H.
    rewrite <- (firstn_skipn n l). apply in_or_app. auto.
  - apply IHn. eapply nondecr_tail; eauto.
Qed.

Lemma nondecr_skipn : forall n l, nondecr l -> nondecr (skipn n l).
Proof. induction n; intros l H; simpl; auto. destruct l; auto. apply IHn. eapply nondecr_tail; eauto. Qed.

(** invariant of legal specification states *)
Record pinv (p : plog) : Prop := {
  pi_base : 0 <= pBase p;
  pi_zero : pBase p = 0 -> pBaseTerm p = 0;
  pi_sorted : nondecr (pBaseTerm p :: pTerms p) }.

Lemma last_ge : forall l d x, nondecr (d :: l) -> x <= d -> x <= last l d.
Proof.
  induction l as [|a l IH]; intros; simpl; auto. destruct H.
  destruct l; [lia|]. apply (IH d x).
  - apply nondecr_cons; [|eapply nondecr_tail; eauto].
    pose proof (nondecr_Forall _ _ H1). inversion H2; subst.
    constructor; [lia|]. eapply Forall_impl; [|exact H6]. simpl; intros; lia.
  - lia.
Qed.

Lemma last_default : forall A (l : list A) d d', l <> [] -> last l d = last l d'.
Proof. induction l; intros; [congruence|]. simpl. destruct l; auto. apply IHl. congruence. Qed.

Lemma nth_skipn_sorted : forall n l t, nondecr l -> nth_error l n = Some t ->
  Forall (fun y => t <= y) (skipn (S n) l).
Proof.
  induction n; intros [|a l] t Hn Ht; simpl in *; try discriminate.
  - inversion Ht; subst. apply nondecr_Forall; auto.
  - apply nondecr_tail in Hn. apply IHn in Ht; auto.
Qed.

Lemma pstep_inv : forall p o, pinv p -> legal p o ->
  (forall t, o = OpAdd t -> 0 <= t) -> pinv (pstep p o).
Proof.
  intros p o [] Hl Ht. destruct o; simpl in *.
  - constructor; simpl; auto.
    change (nondecr ((pBaseTerm p :: pTerms p) ++ [t])). apply nondecr_app_snoc; auto.
    right. change (last (pBaseTerm p :: pTerms p) t <= t).
    unfold pLastTerm in Hl. destruct (pTerms p); simpl in *; auto.
    destruct l; auto. rewrite (last_default _ (z0 :: l) t (pBaseTerm p)); auto. congruence.
  - destruct (Z.ltb_spec k (pBase p)); constructor; simpl; auto; try lia.
    apply nondecr_cons.
    + apply nondecr_Forall in pi_sorted0. rewrite Forall_forall in *. intros y Hy. apply pi_sorted0.
      rewrite <- (firstn_skipn (Z.to_nat (k - pBase p)) (pTerms p)). apply in_or_app; auto.
    + apply nondecr_firstn. eapply nondecr_tail; eauto.
  - destruct (Z.eqb_spec b 0); [constructor; simpl; auto; lia|].
    assert (pBase p < b <= pEnd p) by lia.
    constructor; simpl; try lia.
    + intros. assert (pBase p = 0) by lia. rewrite H1, H0. simpl. auto.
    + destruct (Z.eqb_spec (b - 1) (pBase p)).
      * replace (b - 1 - pBase p) with 0 by lia. simpl. auto.
      * unfold pTermAt. replace (pBase p <? b - 1) with true by (symmetry; apply Z.ltb_lt; lia).
        destruct (nth_error (pTerms p) (Z.to_nat (b - 1 - pBase p - 1))) eqn:E.
        { apply nondecr_cons.
          - replace (Z.to_nat (b - 1 - pBase p)) with (S (Z.to_nat (b - 1 - pBase p - 1))) by lia.
            apply nth_skipn_sorted; auto. eapply nondecr_tail; eauto.
          - apply nondecr_skipn. eapply nondecr_tail; eauto. }
        { apply nth_error_None in E. unfold pEnd in H. lia. }
Qed.

Lemma step_strong : forall s p o, refS s p -> pinv p -> legal p o -> ~ interiorTrunc p o ->
  exists s', rstep s o = Ok s' /\ refS s' (pstep p o).
Proof.
  intros s p o [Hw Hc] Hi Hl Hn. destruct o; simpl in Hl, Hn.
  - destruct (AddTerm_ok s p t) as (s' & E & R & C); auto.
    + rewrite Hc. unfold pLastTerm in Hl. destruct Hi.
      pose proof (last_ge (pTerms p) (pBaseTerm p) (pBaseTerm p) pi_sorted0). lia.
    + rewrite Hc. exact Hl.
    + exists s'. split; auto. split; auto. rewrite C. simpl. auto.
  - destruct (Truncate_ok s p k) as (s' & E & R & C1 & C2 & _); auto.
    exists s'. split; auto. split; auto. simpl.
    destruct (Z.ltb_spec k (pBase p)); simpl; auto.
    rewrite C2, Hc; auto. destruct (Z.eq_dec k (pBase p)); auto. right. lia.
  - destruct (CompactNewBeg_ok s p b) as (s' & E & R & C); auto.
    { intros. left. rewrite Hc. destruct Hi; auto. }
    exists s'. split; auto. split; auto.
Qed.

Lemma run_strong : forall os s p, refS s p -> pinv p -> legalAll p os -> noInteriorTrunc p os ->
  Forall (fun t => 0 <= t) (addedTerms os) ->
  exists s', run_res rstep s os = Ok s' /\ refS s' (prun p os) /\ pinv (prun p os).
Proof.
  induction os as [|o os IH]; intros; simpl in *.
  - exists s; auto.
  - destruct H1 as [L1 L2]. destruct H2 as [N1 N2].
    destruct (step_strong s p o) as (s1 & E & R); auto.
    rewrite E.
    assert (Hpos : (forall t, o = OpAdd t -> 0 <= t) /\ Forall (fun t => 0 <= t) (addedTerms os)).
    { destruct o; simpl in H3; [inversion H3; subst; split; auto; intros ? X; inversion X; subst; auto| |];
      split; auto; intros; discriminate. }
    destruct Hpos. apply IH; auto. apply pstep_inv; auto.
Qed.

(** weak: arbitrary legal histories *)
Lemma step_weak : forall s p o s', refW s p -> legal p o ->
  rstep s o = Ok s' -> refW s' (pstep p o).
Proof.
  intros s p o s' Hw Hl E. destruct o; simpl in *.
  - destruct (AddTerm_inv _ _ _ _ Hw E) as [A B].
    destruct (AddTerm_ok s p t) as (s2 & E2 & R & C); auto. assert (s' = s2) by congruence; subst; exact R.
  - destruct (Truncate_ok s p k) as (s2 & E2 & R & _); auto. assert (s' = s2) by congruence; subst; exact R.
  - (* CompactNewBeg *)
    destruct (Z.eq_dec (pBase p) 0) as [e|n].
    + destruct (Z.eq_dec b 1) as [e1|n1].
      * (* first compaction at 1: the runs do not change *)
        subst b.
        assert (Hz : exists s2, CompactNewBeg (mkRle (BaseC s) (Endi s) (Runs s) 0) 1 = Ok s2 /\
                    refW s2 (pstep p (OpCompact 1))).
        { destruct (CompactNewBeg_ok (mkRle (BaseC s) (Endi s) (Runs s) 0) p 1) as (s2 & E2 & R & _); eauto.
          destruct Hw; constructor; auto. }
        destruct Hz as (s2 & E2 & R).
        unfold CompactNewBeg in E, E2. simpl in E, E2.
        assert (E2' : Ok s' = Ok s2) by congruence. inversion E2'; subst; auto.
      * destruct (CompactNewBeg_ok s p b) as (s2 & E2 & R & _); auto. assert (s' = s2) by congruence; subst; exact R.
    + destruct (CompactNewBeg_ok s p b) as (s2 & E2 & R & _); auto; try lia. assert (s' = s2) by congruence; subst; exact R.
Qed.

Lemma run_weak : forall os s p s', refW s p -> legalAll p os ->
  run_res rstep s os = Ok s' -> refW s' (prun p os).
Proof.
  induction os as [|o os IH]; intros; simpl in *.
  - inversion H1; subst; auto.
  - destruct H0. destruct (rstep s o) eqn:E; [|discriminate].
    eapply IH; eauto. eapply step_weak; eauto.
Qed.

(** weak, no panic: appended terms never below any term ever appended *)
Lemma step_mono : forall s p o hw, refW s p -> legal p o -> 0 <= hw ->
  CompactTerm s <= hw -> Forall (fun t => t <= hw) (pTerms p) ->
  (forall t, o = OpAdd t -> hw <= t) ->
  exists s', rstep s o = Ok s' /\ refW s' (pstep p o) /\
    (let hw' := match o with OpAdd t => t | _ => hw end in
     0 <= hw' /\ CompactTerm s' <= hw' /\ Forall (fun t => t <= hw') (pTerms (pstep p o))).
Proof.
  intros s p o hw Hw Hl H0 Hc Hf Ht. destruct o; simpl in *.
  - specialize (Ht t eq_refl).
    destruct (AddTerm_ok s p t) as (s' & E & R & C); auto; [lia| |].
    { destruct (pTerms p) eqn:E; simpl; [lia|].
      assert (last (z :: l) (CompactTerm s) <= hw); [|simpl in H; lia].
      rewrite Forall_forall in Hf. apply Hf.
      rewrite (app_removelast_last (CompactTerm s) (l := z :: l)) by congruence.
      rewrite last_app_ne. apply in_or_app; right; simpl; auto. }
    exists s'. split; auto. split; auto. split; [lia|]. split; [lia|].
    apply Forall_app; split; [eapply Forall_impl; [|exact Hf]; simpl; intros; lia|repeat constructor; lia].
  - destruct (Truncate_ok s p k) as (s' & E & R & C1 & C2 & C3); auto.
    exists s'. split; auto. split; auto. split; auto.
    assert (Hsub : Forall (fun t => t <= hw) (firstn (Z.to_nat (k - pBase p)) (pTerms p))).
    { rewrite Forall_forall in *. intros y Hy. apply Hf.
      rewrite <- (firstn_skipn (Z.to_nat (k - pBase p)) (pTerms p)). apply in_or_app; auto. }
    split.
    + destruct (Z.ltb_spec k (pBase p)); [rewrite C1; lia|].
      destruct (Z.eq_dec k (pBase p)); [rewrite C2; lia|].
      destruct (Z.ltb_spec (pEnd p) k); [rewrite C2; lia|].
      specialize (C3 ltac:(lia)). unfold pTermAt in C3.
      destruct (pBase p <? k); [|discriminate]. apply nth_error_In in C3.
      rewrite Forall_forall in Hf. auto.
    + destruct (k <? pBase p); simpl; auto.
  - assert (HE : exists s', CompactNewBeg s b = Ok s').
    { destruct (Z.eq_dec (pBase p) 0) as [e|n]; [destruct (Z.eq_dec b 1) as [e1|n1]|].
      - subst b.
        destruct (CompactNewBeg_ok (mkRle (BaseC s) (Endi s) (Runs s) 0) p 1) as (s2 & E2 & R & _); auto.
        { destruct Hw; constructor; auto. }
        exists s2. unfold CompactNewBeg in *. simpl in *. auto.
      - destruct (CompactNewBeg_ok s p b) as (s2 & E2 & R & _); eauto.
      - destruct (CompactNewBeg_ok s p b) as (s2 & E2 & R & _); eauto; try lia. }
    destruct HE as (s' & E). exists s'. split; auto. split.
    { eapply (step_weak s p (OpCompact b)); eauto. }
    split; auto. split.
    + (* new compact term is 0, the old one, or an existing term *)
      unfold CompactNewBeg in E.
      destruct (b <? 0); [discriminate|]. destruct (BaseC s <? 0); [discriminate|].
      destruct (Endi s <? 0); [discriminate|].
      destruct (b =? 0) eqn:Eb0. { inversion E; simpl; auto. }
      apply Z.eqb_neq in Eb0.
      assert (Hct : forall ct, (if b =? 1 then Ok 0 else getTermForIndex s (b - 1)) = Ok ct -> ct <= hw).
      { intros ct Hx. destruct (b =? 1) eqn:Eb; [inversion Hx; subst; auto|].
        apply Z.eqb_neq in Eb.
        destruct (Z.eq_dec (b - 1) (pBase p)).
        - rewrite e, (getTerm_base s p) in Hx; auto. inversion Hx; subst; auto.
          destruct Hw; lia.
        - destruct (getTerm_in s p (b - 1) Hw) as (t & T & G); [destruct Hw; lia|].
          rewrite G in Hx. inversion Hx; subst.
          unfold pTermAt in T. destruct (pBase p <? b - 1); [|discriminate].
          apply nth_error_In in T. rewrite Forall_forall in Hf; auto. }
      destruct (if b =? 1 then Ok 0 else getTermForIndex s (b - 1)) as [ct|] eqn:Ect; unfold bind in E; [|discriminate].
      specialize (Hct ct eq_refl).
      destruct (b <=? BaseC s); [discriminate|]. destruct (Endi s =? 0); [discriminate|].
      destruct (b =? Endi s).
      { destruct (rev (Runs s)); inversion E; subst; simpl; auto. }
      destruct (Endi s <? b); [discriminate|].
      destruct (Runs s) as [|r [|r2 rs]]; [discriminate|inversion E; subst; simpl; auto|].
      destruct (compactLoop (BaseC s) b (r :: r2 :: rs)); inversion E; subst; simpl; auto.
    + destruct (b =? 0); simpl; auto.
      rewrite Forall_forall in *. intros y Hy. apply Hf.
      rewrite <- (firstn_skipn (Z.to_nat (b - 1 - pBase p)) (pTerms p)). apply in_or_app; auto.
Qed.

Lemma run_mono : forall os s p hw, refW s p -> legalAll p os -> 0 <= hw ->
  CompactTerm s <= hw -> Forall (fun t => t <= hw) (pTerms p) ->
  nondecr (hw :: addedTerms os) ->
  exists s', run_res rstep s os = Ok s' /\ refW s' (prun p os).
Proof.
  induction os as [|o os IH]; intros s p hw Hw Hl H0 Hc Hf Hn; simpl.
  - eauto.
  - destruct Hl as [L1 L2].
    destruct (step_mono s p o hw) as (s1 & E & R & A & B & C); auto.
    { intros t ->. simpl in Hn. destruct (addedTerms os); tauto. }
    rewrite E. destruct o; simpl in *.
    + destruct Hn as [Hn1 Hn2]. eapply (IH _ _ t); eauto.
    + eapply (IH _ _ hw); eauto.
    + eapply (IH _ _ hw); eauto.
Qed.

(** ** Iteration *)

Lemma yieldRun_pairs : forall n t i, yieldRun t i n = pairsFrom i (repeat t n).
Proof. induction n; intros; simpl; auto. rewrite IHn. auto. Qed.

Lemma pairsFrom_app : forall a b i, pairsFrom i (a ++ b) = pairsFrom i a ++ pairsFrom (i + Z.of_nat (length a)) b.
Proof.
  induction a; intros; simpl.
  - rewrite Z.add_0_r. auto.
  - rewrite IHa. f_equal. f_equal. f_equal. lia.
Qed.

Lemma iterRest_spec : forall rs i, posRuns rs -> iterRest i rs = pairsFrom i (expand rs).
Proof.
  induction rs; intros; simpl; auto. inversion H; subst.
  rewrite IHrs, yieldRun_pairs, pairsFrom_app, repeat_length by auto. f_equal. f_equal. lia.
Qed.

Lemma iterFind_spec : forall rs base idx nxt, posRuns rs -> base < idx ->
  iterFind base idx nxt rs = pairsFrom nxt (skipn (Z.to_nat (idx - base - 1)) (expand rs)).
Proof.
  induction rs as [|r rs IH]; intros base idx nxt Hp Hi.
  - simpl. rewrite skipn_nil. reflexivity.
  - inversion Hp; subst. simpl.
    rewrite skipn_app, repeat_length.
    destruct (Z.ltb_spec (base + rCount r) idx).
    + rewrite IH by (auto; lia).
      rewrite (skipn_all2 (repeat _ _)) by (rewrite repeat_length; lia). simpl. f_equal. f_equal. lia.
    + rewrite yieldRun_pairs, iterRest_spec by auto.
      replace (Z.to_nat (idx - base - 1) - Z.to_nat (rCount r))%nat with 0%nat by lia.
      rewrite skipn_repeat. simpl. rewrite pairsFrom_app, repeat_length. f_equal.
      * f_equal. f_equal. lia.
      * f_equal. lia.
Qed.

Lemma iter_spec : forall s p i, refW s p -> pBase p < i <= pEnd p ->
  getTermIndexStartingAt s i = Ok (pairsFrom i (skipn (Z.to_nat (i - pBase p - 1)) (pTerms p))).
Proof.
  intros s p i H Hi. destruct H as [rb rn rp rx re]. unfold getTermIndexStartingAt.
  replace (i <? BaseC s) with false by (symmetry; apply Z.ltb_ge; lia).
  replace (Endi s <? i) with false by (symmetry; apply Z.ltb_ge; lia).
  simpl. replace (i =? BaseC s) with false by (symmetry; apply Z.eqb_neq; lia).
  rewrite iterFind_spec by (auto; lia). rewrite rx, rb. auto.
Qed.

(** ** Extends *)

Fixpoint lcpn (a b : list Z) : nat :=
  match a, b with
  | x :: a', y :: b' => if x =? y then S (lcpn a' b') else O
  | _, _ => O
  end.

Lemma lcpn_isLcp : forall a b, isLcp a b (lcpn a b).
Proof.
  induction a as [|x a IH]; intros [|y b]; unfold isLcp; simpl;
    try (repeat split; auto; try lia; intros; discriminate).
  destruct (Z.eqb_spec x y).
  - subst. destruct (IH b) as (A & B & C & D). simpl. repeat split; try lia; auto. congruence.
  - simpl. repeat split; auto; try lia. intros u v Hu Hv. inversion Hu; inversion Hv; subst; auto.
Qed.

Lemma isLcp_unique : forall a b n m, isLcp a b n -> isLcp a b m -> n = m.
Proof.
  assert (aux : forall a b n m, isLcp a b n -> isLcp a b m -> (n < m)%nat -> False).
  { intros a b n m (A1 & B1 & C1 & D1) (A2 & B2 & C2 & D2) Hlt.
    assert (exists x, nth_error a n = Some x).
    { destruct (nth_error a n) eqn:E; eauto. apply nth_error_None in E. lia. }
    assert (exists x, nth_error b n = Some x).
    { destruct (nth_error b n) eqn:E; eauto. apply nth_error_None in E. lia. }
    destruct H as [x Hx]. destruct H0 as [y Hy]. apply (D1 x y); auto.
    assert (nth_error (firstn m a) n = nth_error (firstn m b) n) by congruence.
    assert (F : forall l : list Z, nth_error (firstn m l) n = nth_error l n).
    { clear - Hlt. revert m Hlt. induction n; intros [|m] Hlt [|z l]; simpl; auto; try lia.
      apply IHn. lia. }
    rewrite !F in H. congruence. }
  intros. destruct (Nat.lt_trichotomy n m) as [X|[X|X]]; auto; exfalso; eauto.
Qed.

Lemma lcpn_sym_eq : forall a b, lcpn a b = length a <-> isPrefix a b.
Proof.
  induction a as [|x a IH]; intros b; simpl.
  - split; intros; [exists b; auto|auto].
  - destruct b as [|y b]; simpl.
    + split; [lia|]. intros [c Hc]. discriminate.
    + destruct (Z.eqb_spec x y); subst.
      * split; intros.
        { assert (lcpn a b = length a) by lia. apply IH in H0. destruct H0 as [c ->]. exists c; auto. }
        { f_equal. apply IH. destruct H as [c Hc]. inversion Hc; subst. exists c; auto. }
      * split; [lia|]. intros [c Hc]. inversion Hc; congruence.
Qed.

Lemma extLoop_spec : forall F i tL L endiO, F <> [] ->
  let el := i - 1 + Z.of_nat (S (length L)) in
  let ef := i - 1 + Z.of_nat (length F) in
  endiO = Z.min ef el ->
  exists e, extLoop el ef endiO tL i (pairsFrom (i + 1) L) (pairsFrom i F)
      = (e, i - 1 + Z.of_nat (lcpn F (tL :: L))) /\ (e = true <-> isPrefix F (tL :: L)).
Proof.
  induction F as [|tF F IH]; intros i tL L endiO HF el ef He; [congruence|].
  cbn [pairsFrom extLoop]. destruct (Z.eqb_spec tF tL); simpl negb; cbv iota.
  - subst tF. destruct L as [|t2 L].
    + simpl pairsFrom. cbv iota. exists (ef <=? el). split; [f_equal|].
      * simpl lcpn. rewrite Z.eqb_refl. destruct F; simpl; lia.
      * unfold el, ef. simpl length. rewrite Z.leb_le. split; intros.
        { assert (F = []) by (destruct F; simpl in H; auto; lia). subst. exists []; auto. }
        { destruct H as [c Hc]. inversion Hc. destruct F; simpl in *; [lia|discriminate]. }
    + simpl pairsFrom. cbv iota.
      destruct F as [|tF2 F'].
      * simpl. exists (ef <=? el). split; [f_equal|].
        { rewrite Z.eqb_refl. unfold el, ef in He. simpl length in He. lia. }
        { unfold el, ef. simpl length. rewrite Z.leb_le. split; intros; [exists (t2 :: L); auto|lia]. }
      * destruct (IH (i + 1) t2 L endiO) as (e & E & P); [congruence|..].
        { unfold el, ef in He. simpl length in *. lia. }
        replace (i + 1 - 1 + Z.of_nat (S (length L))) with el in E by (unfold el; simpl length; lia).
        replace (i + 1 - 1 + Z.of_nat (length (tF2 :: F'))) with ef in E by (unfold ef; simpl length; lia).
        exists e. rewrite E. split.
        { f_equal. simpl lcpn at 2. rewrite Z.eqb_refl. simpl lcpn. lia. }
        { rewrite P. split; intros [c Hc]; [exists c; simpl; f_equal; auto|inversion Hc; exists c; auto]. }
  - exists false. split.
    + f_equal. simpl lcpn. rewrite (proj2 (Z.eqb_neq tF tL)) by auto. lia.
    + split; [discriminate|]. intros [c Hc]. inversion Hc; congruence.
Qed.

(** [represents s T]: the run-length log [s] is the full term list [T]
    (entries 1..) compacted at [BaseC s]. *)
Record represents (s : rle) (T : list Z) : Prop := {
  rep_base : 0 <= BaseC s <= Z.of_nat (length T);
  rep_pos : Forall (fun r => 0 < rCount r) (Runs s);
  rep_runs : expand (Runs s) = skipn (Z.to_nat (BaseC s)) T;
  rep_endi : Endi s = Z.of_nat (length T);
  rep_ct : CompactTerm s = if BaseC s =? 0 then 0 else nth (Z.to_nat (BaseC s - 1)) T 0 }.

Lemma represents_refW : forall s T, represents s T ->
  refW s (mkPlog (BaseC s) (CompactTerm s) (skipn (Z.to_nat (BaseC s)) T)).
Proof.
  intros s T []. constructor; simpl; auto; try lia.
  unfold pEnd; simpl. rewrite skipn_length. lia.
Qed.

Lemma runs_nil_iff : forall s T, represents s T ->
  (isNil (Runs s) = true <-> BaseC s = Z.of_nat (length T)).
Proof.
  intros s T []. destruct (Runs s) as [|r rs]; simpl.
  - split; auto. intros _. simpl in rep_runs0.
    assert (length (skipn (Z.to_nat (BaseC s)) T) = 0%nat) by (rewrite <- rep_runs0; auto).
    rewrite skipn_length in H. lia.
  - split; [discriminate|]. intros. inversion rep_pos0; subst.
    assert (length (skipn (Z.to_nat (BaseC s)) T) = 0%nat) by (rewrite skipn_length; lia).
    rewrite <- rep_runs0 in H0. simpl in H0. rewrite app_length, repeat_length in H0. lia.
Qed.

Lemma lcpn_app : forall P a b, lcpn (P ++ a) (P ++ b) = (length P + lcpn a b)%nat.
Proof. induction P; intros; simpl; auto. rewrite Z.eqb_refl, IHP. auto. Qed.

Lemma isPrefix_app : forall P a b, isPrefix (P ++ a) (P ++ b) <-> isPrefix a b.
Proof.
  intros; split; intros [c Hc]; exists c.
  - rewrite <- app_assoc in Hc. apply app_inv_head in Hc. auto.
  - subst. rewrite app_assoc. auto.
Qed.

Lemma compareOverlap_spec : forall l f LT FT, represents l LT -> represents f FT ->
  let k := Z.max (BaseC f) (BaseC l) in
  k < Endi l -> k < Endi f ->
  firstn (Z.to_nat k) LT = firstn (Z.to_nat k) FT ->
  exists e, compareOverlap l f = Ok (e, Z.of_nat (lcpn FT LT)) /\ (e = true <-> isPrefix FT LT).
Proof.
  intros l f LT FT Hl Hf k Hkl Hkf Hag. unfold compareOverlap. fold k.
  pose proof (represents_refW _ _ Hl) as Rl. pose proof (represents_refW _ _ Hf) as Rf.
  assert (Hk0 : 0 <= k) by (destruct Hl; lia).
  assert (Il : getTermIndexStartingAt l (k + 1) = Ok (pairsFrom (k + 1) (skipn (Z.to_nat k) LT))).
  { rewrite (iter_spec _ _ _ Rl).
    - simpl. do 2 f_equal. rewrite skipn_skipn. f_equal. destruct Hl; lia.
    - rewrite <- (rw_endi _ _ Rl). simpl. lia. }
  assert (If : getTermIndexStartingAt f (k + 1) = Ok (pairsFrom (k + 1) (skipn (Z.to_nat k) FT))).
  { rewrite (iter_spec _ _ _ Rf).
    - simpl. do 2 f_equal. rewrite skipn_skipn. f_equal. destruct Hf; lia.
    - rewrite <- (rw_endi _ _ Rf). simpl. lia. }
  rewrite Il, If. unfold bind.
  assert (Ll : length (skipn (Z.to_nat k) LT) = (length LT - Z.to_nat k)%nat) by apply skipn_length.
  assert (Lf : length (skipn (Z.to_nat k) FT) = (length FT - Z.to_nat k)%nat) by apply skipn_length.
  pose proof (rep_endi _ _ Hl) as El. pose proof (rep_endi _ _ Hf) as Ef.
  assert (DL : LT = firstn (Z.to_nat k) LT ++ skipn (Z.to_nat k) LT) by (symmetry; apply firstn_skipn).
  assert (DF : FT = firstn (Z.to_nat k) FT ++ skipn (Z.to_nat k) FT) by (symmetry; apply firstn_skipn).
  assert (Lp : length (firstn (Z.to_nat k) FT) = Z.to_nat k) by (rewrite firstn_length; lia).
  destruct (skipn (Z.to_nat k) LT) as [|tL L] eqn:EL; [simpl in Ll; lia|].
  simpl pairsFrom at 1. cbv iota.
  destruct (extLoop_spec (skipn (Z.to_nat k) FT) (k + 1) tL L (Z.min (Endi f) (Endi l))) as (e & E & P).
  { intro X. rewrite X in Lf. simpl in Lf. lia. }
  { rewrite El, Ef, Lf. simpl length in *. lia. }
  replace (k + 1 - 1 + Z.of_nat (S (length L))) with (Endi l) in E by (simpl length in *; lia).
  replace (k + 1 - 1 + Z.of_nat (length (skipn (Z.to_nat k) FT))) with (Endi f) in E by lia.
  exists e. rewrite E. split.
  - assert (X: lcpn FT LT = (Z.to_nat k + lcpn (skipn (Z.to_nat k) FT) (tL::L))%nat).
    { rewrite <- Lp at 1. rewrite <- lcpn_app. rewrite <- DF, <- Hag, <- DL. reflexivity. }
    rewrite X. do 2 f_equal. lia.
  - rewrite P. rewrite <- (isPrefix_app (firstn (Z.to_nat k) FT)).
    rewrite <- DF, <- Hag, <- DL. tauto.
Qed.

Lemma isLcp_full : forall F L, isPrefix F L -> isLcp F L (length F).
Proof.
  intros F L H. apply lcpn_sym_eq in H. rewrite <- H. apply lcpn_isLcp.
Qed.

Lemma isPrefix_firstn : forall (F L : list Z), isPrefix F L <-> F = firstn (length F) L.
Proof.
  intros; split.
  - intros [c ->]. rewrite firstn_app, Nat.sub_diag, firstn_all. simpl. rewrite app_nil_r. auto.
  - intros H. exists (skipn (length F) L). rewrite H at 1. symmetry. apply firstn_skipn.
Qed.

Lemma isLcp_short_leader : forall F L, (length L < length F)%nat -> L = firstn (length L) F ->
  isLcp F L (length L) /\ ~ isPrefix F L.
Proof.
  intros F L Hlt HL. split.
  - unfold isLcp. rewrite <- HL, firstn_all. repeat split; auto; try lia.
    intros x y _ Hy. assert (nth_error L (length L) = None) by (apply nth_error_None; lia). congruence.
  - intros [c ->]. rewrite app_length in Hlt. lia.
Qed.

Lemma last_nth : forall (T : list Z) d, T <> [] -> last T d = nth (length T - 1) T d.
Proof.
  induction T as [|x T IH]; intros; [congruence|]. destruct T as [|y T]; auto.
  change (last (x :: y :: T) d) with (last (y :: T) d). rewrite IH by congruence.
  simpl. rewrite Nat.sub_0_r. reflexivity.
Qed.

Lemma skipn_last_eq : forall A n (T : list A) d, (n < length T)%nat -> last (skipn n T) d = last T d.
Proof.
  induction n; intros [|x T] d H; simpl in *; auto; try lia.
  rewrite IHn by lia. destruct T; simpl in *; auto; lia.
Qed.

Lemma Extends_spec : forall l f LT FT,
  represents l LT -> represents f FT ->
  (* what the follower compacted is in the leader's log *)
  firstn (Z.to_nat (BaseC f)) FT = firstn (Z.to_nat (BaseC f)) LT ->
  (* if the follower's log reaches beyond the leader's compaction point,
     the two agree up to that point *)
  (BaseC l < Z.of_nat (length FT) ->
     firstn (Z.to_nat (BaseC l)) FT = firstn (Z.to_nat (BaseC l)) LT) ->
  (* log matching at the compaction point *)
  (BaseC l = Z.of_nat (length FT) -> (0 < length FT)%nat -> last FT 0 = nth (Z.to_nat (BaseC l - 1)) LT 0 ->
     FT = firstn (length FT) LT) ->
  exists e c ns, Extends (Some l) (Some f) = Ok (e, c, ns) /\ 0 <= c /\
    firstn (Z.to_nat c) FT = firstn (Z.to_nat c) LT /\
    (ns = false -> (e = true <-> isPrefix FT LT) /\ isLcp FT LT (Z.to_nat c)).
Proof.
  intros l f LT FT Hl Hf A1 A2 A3.
  pose proof (runs_nil_iff _ _ Hl) as NL. pose proof (runs_nil_iff _ _ Hf) as NF.
  pose proof Hl as Hl'. destruct Hl' as [lb lp lr le lc].
  pose proof Hf as Hf'. destruct Hf' as [fb fp fr fe fc].
  assert (A1len : (Z.to_nat (BaseC f) <= length LT)%nat).
  { assert (length (firstn (Z.to_nat (BaseC f)) FT) = length (firstn (Z.to_nat (BaseC f)) LT)) by congruence.
    rewrite !firstn_length in H. lia. }
  unfold Extends.
  destruct ((BaseC f =? 0) && isNil (Runs f)) eqn:E0.
  { apply andb_true_iff in E0. destruct E0 as [E1 E2]. apply Z.eqb_eq in E1. apply NF in E2.
    assert (FT = []) by (destruct FT; auto; simpl in E2; lia). subst FT.
    exists true, 0, false. repeat split; auto; try lia.
    - intros. exists LT; auto.
    - intros x y Hx. discriminate. }
  assert (HF0 : (0 < length FT)%nat).
  { apply andb_false_iff in E0. destruct E0 as [E1|E1].
    - apply Z.eqb_neq in E1. lia.
    - destruct (isNil (Runs f)) eqn:EE; [discriminate|].
      assert (BaseC f <> Z.of_nat (length FT)) by (intro X; apply NF in X; congruence). lia. }
  destruct (isNil (Runs l)) eqn:EL.
  { pose proof (proj1 NL eq_refl) as EL'.
    destruct (Z.eqb_spec (BaseC l) 0).
    { assert (LT = []) by (destruct LT; auto; simpl in *; lia). subst LT.
      exists false, 0, false. split; auto. split; [lia|]. split; auto. intros _. split.
      - split; [discriminate|]. intros [c Hc]. destruct FT; simpl in *; [lia|discriminate].
      - repeat split; simpl; auto; try lia. intros x y _ Hy. discriminate. }
    destruct (Z.eqb_spec (BaseC f) (BaseC l)).
    { rewrite e in *. assert (HP : firstn (length LT) FT = LT).
      { replace (length LT) with (Z.to_nat (BaseC l)) by lia. rewrite A1. apply firstn_all2. lia. }
      destruct (isNil (Runs f)) eqn:EF.
      - pose proof (proj1 NF eq_refl) as EF'.
        assert (FT = LT). { rewrite <- HP. symmetry. apply firstn_all2. lia. }
        subst FT. exists true, (BaseC l), false. split; auto. split; [lia|]. split; auto. intros _.
        assert (isPrefix LT LT) by (exists []; rewrite app_nil_r; auto).
        split; [tauto|]. rewrite EL', Nat2Z.id. apply isLcp_full; auto.
      - assert (BaseC l <> Z.of_nat (length FT)) by (intro X; apply NF in X; congruence).
        assert (L1 : (length LT < length FT)%nat) by lia.
        destruct (isLcp_short_leader FT LT) as [I1 I2]; auto.
        exists false, (BaseC l), false. split; auto. split; [lia|].
        split; [exact A1|]. intros _. split; [split; [discriminate|tauto]|].
        rewrite EL', Nat2Z.id. auto. }
    destruct (Z.ltb_spec (BaseC l) (BaseC f)).
    { exfalso. lia. }
    exists false, (BaseC f), true. split; auto. split; [lia|]. split; auto. discriminate. }
  assert (HL1 : BaseC l < Z.of_nat (length LT)).
  { assert (BaseC l <> Z.of_nat (length LT)) by (intro X; apply NL in X; congruence). lia. }
  destruct ((BaseC l =? 0) && (BaseC f =? 0)) eqn:E2.
  { apply andb_true_iff in E2. destruct E2 as [E3 E4]. apply Z.eqb_eq in E3, E4.
    unfold extendsNoCompaction. rewrite E3, E4. simpl negb. simpl orb. cbv iota. rewrite EL.
    assert (EF : isNil (Runs f) = false).
    { destruct (isNil (Runs f)) eqn:X; auto. rewrite E4 in E0. discriminate. }
    rewrite EF.
    replace (Endi f <=? 0) with false by (symmetry; apply Z.leb_gt; lia).
    replace (Endi l <=? 0) with false by (symmetry; apply Z.leb_gt; lia).
    destruct (compareOverlap_spec l f LT FT Hl Hf) as (e & E & P); try lia.
    { rewrite E3, E4. reflexivity. }
    rewrite E. unfold bind. exists e, (Z.of_nat (lcpn FT LT)), false.
    split; auto. split; [lia|]. rewrite Nat2Z.id.
    pose proof (lcpn_isLcp FT LT) as I. split; [apply I|]. auto. }
  destruct (Z.leb_spec (Endi f) (BaseC l)).
  { destruct (Z.ltb_spec (BaseC f) (Endi f)).
    { assert (EF : isNil (Runs f) = false).
      { destruct (isNil (Runs f)) eqn:X; auto. pose proof (proj1 NF eq_refl). lia. }
      rewrite EF.
      destruct ((Endi f =? BaseC l) && (lastTerm f =? CompactTerm l)) eqn:E5.
      - apply andb_true_iff in E5. destruct E5 as [E6 E7]. apply Z.eqb_eq in E6, E7.
        assert (HFT : FT = firstn (length FT) LT).
        { apply A3; [lia|auto|].
          rewrite (lastTerm_spec _ _ (represents_refW _ _ Hf)) in E7. simpl in E7.
          rewrite skipn_last_eq in E7 by lia.
          rewrite (last_default _ _ _ 0) in E7 by (intro X; subst FT; simpl in HF0; lia).
          rewrite E7, lc. replace (BaseC l =? 0) with false by (symmetry; apply Z.eqb_neq; lia). auto. }
        assert (HP : isPrefix FT LT) by (apply isPrefix_firstn; auto).
        exists true, (Endi f), false. split; auto. split; [lia|]. rewrite fe, Nat2Z.id.
        split; [rewrite firstn_all; auto|]. intros _. split; [tauto|]. apply isLcp_full; auto.
      - exists false, (BaseC f), true. split; auto. split; [lia|]. split; auto. discriminate. }
    destruct (Z.ltb_spec (BaseC f) (BaseC l)).
    { exists false, (BaseC f), true. split; auto. split; [lia|]. split; auto. discriminate. }
    assert (Ebb : BaseC f = BaseC l) by lia.
    rewrite (proj2 (Z.eqb_eq _ _) Ebb). simpl negb. cbv iota.
    assert (HFT : FT = firstn (length FT) LT).
    { replace (length FT) with (Z.to_nat (BaseC f)) by lia. rewrite <- A1. symmetry. apply firstn_all2. lia. }
    assert (HP : isPrefix FT LT) by (apply isPrefix_firstn; auto).
    assert (CompactTerm f = CompactTerm l).
    { rewrite fc, lc, Ebb. destruct (BaseC l =? 0) eqn:Z0; auto. apply Z.eqb_neq in Z0.
      rewrite HFT. destruct HP as [c ->]. rewrite firstn_app, Nat.sub_diag, firstn_all. simpl. rewrite app_nil_r.
      rewrite app_nth1; auto. lia. }
    rewrite H2, Z.eqb_refl. exists true, (BaseC f), false. split; auto. split; [lia|].
    replace (Z.to_nat (BaseC f)) with (length FT) by lia.
    split; [rewrite firstn_all; auto|]. intros _. split; [tauto|]. apply isLcp_full; auto. }
  destruct (isNil (Runs f)) eqn:EF.
  { pose proof (proj1 NF eq_refl) as EF'.
    assert (HFT : FT = firstn (length FT) LT).
    { replace (length FT) with (Z.to_nat (BaseC f)) by lia. rewrite <- A1. symmetry. apply firstn_all2. lia. }
    assert (HP : isPrefix FT LT) by (apply isPrefix_firstn; auto).
    exists true, (BaseC f), false. split; auto. split; [lia|].
    replace (Z.to_nat (BaseC f)) with (length FT) by lia.
    split; [rewrite firstn_all; auto|]. intros _. split; [tauto|]. apply isLcp_full; auto. }
  assert (HF1 : BaseC f < Z.of_nat (length FT)).
  { assert (BaseC f <> Z.of_nat (length FT)) by (intro X; apply NF in X; congruence). lia. }
  destruct (Z.leb_spec (Endi l) (BaseC f)).
  { assert (Eq : BaseC f = Z.of_nat (length LT)) by lia.
    assert (HL : LT = firstn (length LT) FT).
    { replace (length LT) with (Z.to_nat (BaseC f)) by lia. rewrite A1. symmetry. apply firstn_all2. lia. }
    destruct (isLcp_short_leader FT LT) as [I1 I2]; auto; [lia|].
    exists false, (Endi l), false. split; auto. split; [lia|]. rewrite le, Nat2Z.id.
    split; [rewrite firstn_all; symmetry; auto|]. intros _. split; [split; [discriminate|tauto]|auto]. }
  destruct (compareOverlap_spec l f LT FT Hl Hf) as (e & E & P); try lia.
  { destruct (Z.max_spec (BaseC f) (BaseC l)) as [[_ ->]|[_ ->]]; symmetry; auto. apply A2. lia. }
  rewrite E. unfold bind. exists e, (Z.of_nat (lcpn FT LT)), false.
  split; auto. split; [lia|]. rewrite Nat2Z.id.
  pose proof (lcpn_isLcp FT LT) as I. split; [apply I|]. auto.
Qed.

(** ** Reachable logs represent their full history *)

Record prep (p : plog) (T : list Z) : Prop := {
  pr_base : 0 <= pBase p <= Z.of_nat (length T);
  pr_terms : pTerms p = skipn (Z.to_nat (pBase p)) T;
  pr_bt : pBaseTerm p = if pBase p =? 0 then 0 else nth (Z.to_nat (pBase p - 1)) T 0 }.

Lemma prep_end : forall p T, prep p T -> pEnd p = Z.of_nat (length T).
Proof. intros p T []. unfold pEnd. rewrite pr_terms0, skipn_length. lia. Qed.

Lemma prep_step : forall p T o, prep p T -> legal p o ->
  match o with OpTrunc _ => False | OpCompact b => b <> 0 | OpAdd _ => True end ->
  prep (pstep p o) (T ++ addedTerms [o]).
Proof.
  intros p T o H Hl Hg. pose proof (prep_end _ _ H) as He. destruct H.
  destruct o; simpl in *; try tauto.
  - constructor; simpl; rewrite ?app_length; simpl; try lia.
    + rewrite skipn_app. rewrite pr_terms0. f_equal.
      replace (Z.to_nat (pBase p) - length T)%nat with 0%nat by lia. reflexivity.
    + rewrite pr_bt0. destruct (Z.eqb_spec (pBase p) 0); auto. rewrite app_nth1; auto. lia.
  - rewrite app_nil_r. destruct (Z.eqb_spec b 0); [lia|].
    assert (pBase p < b <= pEnd p) by lia.
    constructor; simpl; try lia.
    + rewrite pr_terms0, skipn_skipn. f_equal. lia.
    + destruct (Z.eqb_spec (b - 1) (pBase p)).
      * rewrite pr_bt0, e. auto.
      * replace (b - 1 =? 0) with false by (symmetry; apply Z.eqb_neq; lia).
        unfold pTermAt. replace (pBase p <? b - 1) with true by (symmetry; apply Z.ltb_lt; lia).
        rewrite pr_terms0.
        rewrite nth_error_skipn. replace (Z.to_nat (pBase p) + Z.to_nat (b - 1 - pBase p - 1))%nat with (Z.to_nat (b - 1 - 1)) by lia.
        destruct (nth_error T (Z.to_nat (b - 1 - 1))) eqn:E.
        { symmetry. apply nth_error_nth; auto. }
        { apply nth_error_None in E. lia. }
Qed.

Lemma addedTerms_cons : forall o os, addedTerms (o :: os) = addedTerms [o] ++ addedTerms os.
Proof. destruct o; reflexivity. Qed.

Lemma prep_run : forall os p T, prep p T -> legalAll p os -> growOnly os ->
  prep (prun p os) (T ++ addedTerms os).
Proof.
  induction os as [|o os IH]; intros.
  - simpl. rewrite app_nil_r. auto.
  - destruct H0. inversion H1; subst. rewrite addedTerms_cons, app_assoc. simpl.
    apply IH; auto. apply prep_step; auto.
Qed.

Lemma growOnly_noTrunc : forall os p, growOnly os -> noInteriorTrunc p os.
Proof.
  induction os; intros; simpl; auto. inversion H; subst. split; auto.
  destruct a; simpl; tauto.
Qed.

Lemma refS_empty : refS newRle pEmpty.
Proof. split; auto. constructor; simpl; auto; try lia. constructor. Qed.

Lemma pinv_empty : pinv pEmpty.
Proof. constructor; simpl; auto; lia. Qed.

Lemma reachable_represents : forall os, legalAll pEmpty os -> growOnly os ->
  Forall (fun t => 0 <= t) (addedTerms os) ->
  exists s, run_res rstep newRle os = Ok s /\ represents s (addedTerms os).
Proof.
  intros os Hl Hg Hp.
  destruct (run_strong os newRle pEmpty) as (s & E & [R C] & _); auto using refS_empty, pinv_empty.
  { apply growOnly_noTrunc; auto. }
  exists s; split; auto.
  assert (P : prep (prun pEmpty os) ([] ++ addedTerms os)).
  { apply prep_run; auto. constructor; simpl; auto; lia. }
  simpl in P. pose proof (prep_end _ _ P) as PE. destruct P as [pr_base0 pr_terms0 pr_bt0]. destruct R as [rw_base0 rw_nn0 rw_pos0 rw_exp0 rw_endi0].
  constructor.
  - lia.
  - exact rw_pos0.
  - rewrite rw_exp0, pr_terms0, rw_base0. auto.
  - lia.
  - rewrite C, pr_bt0, rw_base0. auto.
Qed.

Lemma nondecr_app_inv : forall a b, nondecr (a ++ b) -> nondecr a /\ nondecr b.
Proof.
  induction a as [|x a IH]; intros; [split; simpl; auto|].
  destruct (IH b) as [A B]. { simpl in H. eapply nondecr_tail; eauto. }
  split; auto. apply nondecr_cons; auto.
  simpl in H. apply nondecr_Forall in H. apply Forall_app in H. tauto.
Qed.

Lemma adds_legal : forall ts p, nondecr (pLastTerm p :: ts) -> legalAll p (map OpAdd ts).
Proof.
  induction ts; intros; simpl; auto. destruct H. split; auto.
  apply IHts. unfold pLastTerm; simpl. rewrite last_last. auto.
Qed.

Lemma adds_addedTerms : forall ts, addedTerms (map OpAdd ts) = ts.
Proof. induction ts; simpl; congruence. Qed.

Lemma adds_growOnly : forall ts, growOnly (map OpAdd ts).
Proof. induction ts; constructor; auto. Qed.

Lemma adds_base : forall ts s s', run_res rstep s (map OpAdd ts) = Ok s' -> BaseC s' = BaseC s.
Proof.
  induction ts; intros; simpl in *; [congruence|].
  destruct (AddTerm s a) eqn:E; [|discriminate]. rewrite (IHts _ _ H).
  unfold AddTerm in E. destruct (a <? CompactTerm s); [discriminate|].
  destruct (rev (Runs s)); [inversion E; auto|].
  destruct (rTerm r =? a); [inversion E; auto|].
  destruct (a <? rTerm r); inversion E; auto.
Qed.

Lemma adds_represents : forall ts, nondecr (0 :: ts) ->
  exists s, run_res rstep newRle (map OpAdd ts) = Ok s /\ represents s ts /\ BaseC s = 0.
Proof.
  intros ts H. destruct (reachable_represents (map OpAdd ts)) as (s & E & R).
  - apply adds_legal; auto.
  - apply adds_growOnly.
  - rewrite adds_addedTerms. apply nondecr_Forall in H. auto.
  - exists s. rewrite adds_addedTerms in R. split; auto. split; auto.
    rewrite (adds_base _ _ _ E). reflexivity.
Qed.
