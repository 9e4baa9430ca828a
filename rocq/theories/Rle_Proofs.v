From Coq Require Import List ZArith Lia Bool.
From Verif Require Import Base Rle_Model Rle_Spec.
Import ListNotations.
Open Scope Z_scope.

(** plain list of terms denoted by a run list *)
Fixpoint expand (rs : list run) : list Z :=
  match rs with
  | [] => []
  | r :: rs' => repeat (rTerm r) (Z.to_nat (rCount r)) ++ expand rs'
  end.

Definition posRuns (rs : list run) : Prop := Forall (fun r => 0 < rCount r) rs.

Definition elen (rs : list run) : Z := Z.of_nat (length (expand rs)).

Lemma elen_nil : elen [] = 0. Proof. reflexivity. Qed.
Lemma elen_cons : forall r rs, 0 < rCount r -> elen (r :: rs) = rCount r + elen rs.
Proof. intros; unfold elen; simpl. rewrite app_length, repeat_length. lia. Qed.
Lemma elen_nonneg : forall rs, 0 <= elen rs. Proof. intros; unfold elen; lia. Qed.
Lemma elen_pos : forall r rs, 0 < rCount r -> 0 < elen (r :: rs).
Proof. intros. rewrite elen_cons by auto. pose proof (elen_nonneg rs). lia. Qed.

Lemma expand_app : forall a b, expand (a ++ b) = expand a ++ expand b.
Proof. induction a; intros; simpl; auto. rewrite IHa, app_assoc. auto. Qed.

Lemma rev_cons_last : forall A (l : list A) r rest, rev l = r :: rest -> l = rev rest ++ [r].
Proof. intros. rewrite <- (rev_involutive l), H. reflexivity. Qed.

Lemma bumpLast_app : forall l r, bumpLast (l ++ [r]) = l ++ [mkRun (rTerm r) (rCount r + 1)].
Proof.
  induction l as [|a l IH]; intros; simpl; auto.
  destruct (l ++ [r]) eqn:E.
  - destruct l; discriminate.
  - rewrite <- E, IH. reflexivity.
Qed.

Lemma repeat_snoc : forall A (x : A) n, repeat x n ++ [x] = repeat x (S n).
Proof. induction n; simpl; auto. rewrite IHn. auto. Qed.

Lemma posRuns_app : forall a b, posRuns (a ++ b) <-> posRuns a /\ posRuns b.
Proof. intros; unfold posRuns; rewrite Forall_app; tauto. Qed.

(** weak refinement relation: everything but the compaction term *)
Record refW (s : rle) (p : plog) : Prop := {
  rw_base : BaseC s = pBase p;
  rw_nonneg : 0 <= BaseC s;
  rw_pos : posRuns (Runs s);
  rw_exp : expand (Runs s) = pTerms p;
  rw_endi : Endi s = pEnd p }.

Definition refS (s : rle) (p : plog) : Prop := refW s p /\ CompactTerm s = pBaseTerm p.

Lemma refW_elen : forall s p, refW s p -> Endi s = BaseC s + elen (Runs s).
Proof. intros s p []. rewrite rw_endi0. unfold pEnd, elen. rewrite rw_exp0, rw_base0. auto. Qed.

Lemma last_app_ne : forall A (l : list A) d x, last (l ++ [x]) d = x.
Proof. intros. apply last_last. Qed.

Lemma expand_last : forall rs r, 0 < rCount r -> forall d, last (expand (rs ++ [r])) d = rTerm r.
Proof.
  intros. rewrite expand_app. simpl. rewrite app_nil_r.
  destruct (Z.to_nat (rCount r)) eqn:E; [lia|].
  rewrite <- repeat_snoc, app_assoc. apply last_last.
Qed.

Lemma lastTerm_spec : forall s p, refW s p ->
  lastTerm s = last (pTerms p) (CompactTerm s).
Proof.
  intros s p []. unfold lastTerm. rewrite <- rw_exp0.
  destruct (rev (Runs s)) eqn:E.
  - assert (Runs s = []). { rewrite <- (rev_involutive (Runs s)), E. auto. }
    rewrite H. reflexivity.
  - apply rev_cons_last in E. rewrite E in *.
    rewrite expand_last; auto.
    apply posRuns_app in rw_pos0. destruct rw_pos0 as [_ H]. inversion H; auto.
Qed.

Lemma lastIndex_spec : forall s p, refW s p -> lastIndex s = Ok (pEnd p).
Proof.
  intros s p H. pose proof (refW_elen _ _ H). destruct H.
  unfold lastIndex. destruct (Runs s) eqn:E.
  - rewrite elen_nil in H0. replace (BaseC s =? Endi s) with true by (symmetry; apply Z.eqb_eq; lia).
    rewrite <- rw_endi0. f_equal. lia.
  - congruence.
Qed.

(** AddTerm *)
Lemma AddTerm_ok : forall s p t, refW s p -> CompactTerm s <= t ->
  last (pTerms p) (CompactTerm s) <= t ->
  exists s', AddTerm s t = Ok s' /\ refW s' (pstep p (OpAdd t)) /\ CompactTerm s' = CompactTerm s.
Proof.
  intros s p t H Hc Hl. pose proof (refW_elen _ _ H) as He.
  pose proof H as H0. destruct H0.
  unfold AddTerm.
  assert (Hend: (if Endi s =? 0 then BaseC s + 1 else Endi s + 1) = Endi s + 1).
  { destruct (Z.eqb_spec (Endi s) 0); auto. pose proof (elen_nonneg (Runs s)). lia. }
  rewrite Hend.
  replace (t <? CompactTerm s) with false by (symmetry; apply Z.ltb_ge; lia).
  assert (Hpe : Endi s + 1 = pEnd (pstep p (OpAdd t))).
  { rewrite rw_endi0. unfold pEnd; simpl. rewrite app_length; simpl. lia. }
  destruct (rev (Runs s)) as [|r rest] eqn:E.
  - assert (Hn: Runs s = []). { rewrite <- (rev_involutive (Runs s)), E. auto. }
    eexists; split; [reflexivity|]. split; [|reflexivity].
    rewrite Hn in rw_exp0. simpl in rw_exp0.
    constructor; simpl; auto.
    + repeat constructor.
    + rewrite <- rw_exp0. reflexivity.
  - apply rev_cons_last in E.
    rewrite E in rw_pos0, rw_exp0. apply posRuns_app in rw_pos0. destruct rw_pos0 as [Hp1 Hp2].
    inversion Hp2 as [|? ? Hrp _]; subst.
    assert (Hlt : last (pTerms p) (CompactTerm s) = rTerm r).
    { rewrite <- rw_exp0. apply expand_last; auto. }
    destruct (Z.eqb_spec (rTerm r) t).
    + eexists; split; [reflexivity|]. split; [|reflexivity]. constructor; simpl; auto.
      * rewrite E, bumpLast_app. apply posRuns_app; split; auto. repeat constructor; simpl; lia.
      * rewrite E, bumpLast_app, expand_app. simpl. rewrite app_nil_r.
        rewrite <- rw_exp0, expand_app. simpl. rewrite app_nil_r.
        rewrite <- app_assoc. f_equal.
        replace (Z.to_nat (rCount r + 1)) with (S (Z.to_nat (rCount r))) by lia.
        rewrite <- repeat_snoc. subst t. reflexivity.
    + replace (t <? rTerm r) with false by (symmetry; apply Z.ltb_ge; lia).
      eexists; split; [reflexivity|]. split; [|reflexivity]. constructor; simpl; auto.
      * rewrite E. apply posRuns_app; split; [apply posRuns_app; split; auto|]. repeat constructor; simpl; lia.
      * rewrite E, expand_app, rw_exp0. simpl. reflexivity.
Qed.

Lemma AddTerm_inv : forall s p t s', refW s p -> AddTerm s t = Ok s' ->
  CompactTerm s <= t /\ last (pTerms p) (CompactTerm s) <= t.
Proof.
  intros s p t s' H Ha. pose proof (lastTerm_spec _ _ H) as Hl.
  rewrite <- Hl. unfold AddTerm, lastTerm in *.
  destruct (Z.ltb_spec t (CompactTerm s)); [discriminate|].
  destruct (rev (Runs s)); [lia|].
  destruct (Z.eqb_spec (rTerm r) t); [lia|].
  destruct (Z.ltb_spec t (rTerm r)); [discriminate|lia].
Qed.

(** Truncate *)
Lemma firstn_app_exact : forall A n (a b : list A), length a = n -> firstn n (a ++ b) = a.
Proof. intros. subst. rewrite firstn_app, Nat.sub_diag, firstn_all. simpl. apply app_nil_r. Qed.

Lemma firstn_repeat : forall A (x : A) n m, (n <= m)%nat -> firstn n (repeat x m) = repeat x n.
Proof.
  induction n; intros; simpl; auto. destruct m; [lia|]. simpl. f_equal. apply IHn. lia.
Qed.

Lemma truncLoop_spec : forall rs base k, posRuns rs -> base < k <= base + elen rs ->
  exists kept ct, truncLoop base k rs = Ok (kept, ct) /\ posRuns kept /\
     expand kept = firstn (Z.to_nat (k - base)) (expand rs) /\
     nth_error (expand rs) (Z.to_nat (k - base - 1)) = Some ct.
Proof.
  induction rs as [|r rs IH]; intros base k Hp Hk.
  - rewrite elen_nil in Hk. lia.
  - inversion Hp as [|? ? Hr Hrs]; subst. rewrite elen_cons in Hk by auto. simpl.
    destruct (Z.eqb_spec k (base + rCount r)).
    + exists [r], (rTerm r). split; auto. split; [repeat constructor; auto|].
      split.
      * simpl. rewrite app_nil_r. rewrite firstn_app_exact; auto. rewrite repeat_length. lia.
      * rewrite nth_error_app1 by (rewrite repeat_length; lia). apply nth_error_repeat. lia.
    + destruct (Z.ltb_spec k (base + rCount r)).
      * eexists _, _. split; [reflexivity|]. split; [repeat constructor; simpl; lia|].
        split.
        { simpl. rewrite app_nil_r. rewrite firstn_app.
          rewrite repeat_length.
          replace (Z.to_nat (k - base) - Z.to_nat (rCount r))%nat with 0%nat by lia.
          simpl. rewrite app_nil_r. rewrite firstn_repeat by lia. f_equal. lia. }
        { rewrite nth_error_app1 by (rewrite repeat_length; lia). apply nth_error_repeat. lia. }
      * destruct (IH (base + rCount r) k Hrs) as (kept & ct & E & P & X & N); [lia|].
        rewrite E. simpl. eexists _, _. split; [reflexivity|].
        split; [constructor; auto|]. split.
        { simpl. rewrite X. rewrite firstn_app. rewrite repeat_length.
          rewrite (firstn_all2 (repeat _ _)) by (rewrite repeat_length; lia). f_equal. f_equal. lia. }
        { rewrite nth_error_app2 by (rewrite repeat_length; lia). rewrite repeat_length.
          rewrite <- N. f_equal. lia. }
Qed.

Lemma Truncate_ok : forall s p k, refW s p -> 0 <= k ->
  exists s', Truncate s k = Ok s' /\ refW s' (pstep p (OpTrunc k)) /\
    (k < pBase p -> CompactTerm s' = 0) /\
    (k = pBase p \/ pEnd p < k -> CompactTerm s' = CompactTerm s) /\
    (pBase p < k <= pEnd p -> pTermAt p k = Some (CompactTerm s')).
Proof.
  intros s p k H Hk. pose proof (refW_elen _ _ H) as He. pose proof H as H0. destruct H0.
  unfold Truncate. simpl. rewrite rw_base0 in *.
  destruct (Z.leb_spec k (pBase p)).
  - eexists; split; [reflexivity|]. split; [|].
    + destruct (Z.ltb_spec k (pBase p)).
      * constructor; simpl; auto; try lia. constructor. unfold pEnd; simpl; lia.
      * assert (k = pBase p) by lia. subst k. rewrite Z.sub_diag. simpl.
        constructor; simpl; auto; try lia. constructor. unfold pEnd; simpl; lia.
    + simpl. unfold pEnd. destruct (Z.ltb_spec k (pBase p)); repeat split; intros; try lia; auto.
  - destruct (Z.ltb_spec k (pBase p)); [lia|].
    destruct (Z.ltb_spec (Endi s) k).
    + exists s; split; auto. split; [|repeat split; intros; auto; lia].
      rewrite firstn_all2.
      * destruct p; simpl in *; auto.
      * rewrite rw_endi0 in *. unfold pEnd in *. lia.
    + destruct (truncLoop_spec (Runs s) (pBase p) k) as (kept & ct & E & P & X & N); auto; [lia|].
      rewrite E. simpl. eexists; split; [reflexivity|]. split; [|simpl; repeat split; intros; try lia].
      * constructor; simpl; auto; try lia.
        { rewrite X, rw_exp0. reflexivity. }
        { unfold pEnd; simpl. rewrite firstn_length. rewrite rw_endi0 in *. unfold pEnd in *. lia. }
      * unfold pTermAt. replace (pBase p <? k) with true by (symmetry; apply Z.ltb_lt; lia).
        rewrite <- rw_exp0, <- N. f_equal.
Qed.

(** getTermForIndex *)
Lemma termLoop_spec : forall rs base i, posRuns rs -> base < i <= base + elen rs ->
  exists t, termLoop base i rs = Ok t /\ nth_error (expand rs) (Z.to_nat (i - base - 1)) = Some t.
Proof.
  induction rs as [|r rs IH]; intros base i Hp Hi.
  - rewrite elen_nil in Hi; lia.
  - inversion Hp as [|? ? Hr Hrs]; subst. rewrite elen_cons in Hi by auto. simpl.
    destruct (Z.leb_spec i (base + rCount r)).
    + exists (rTerm r); split; auto.
      rewrite nth_error_app1 by (rewrite repeat_length; lia). apply nth_error_repeat. lia.
    + destruct (IH (base + rCount r) i Hrs) as (t & E & N); [lia|].
      exists t; split; auto. rewrite nth_error_app2 by (rewrite repeat_length; lia).
      rewrite repeat_length, <- N. f_equal. lia.
Qed.

Lemma getTerm_in : forall s p i, refW s p -> pBase p < i <= pEnd p ->
  exists t, pTermAt p i = Some t /\ getTermForIndex s i = Ok t.
Proof.
  intros s p i H Hi. pose proof (refW_elen _ _ H) as He. destruct H.
  unfold getTermForIndex.
  replace (i =? BaseC s) with false by (symmetry; apply Z.eqb_neq; lia).
  rewrite andb_false_r.
  replace (i <? BaseC s) with false by (symmetry; apply Z.ltb_ge; lia).
  replace (Endi s <? i) with false by (symmetry; apply Z.ltb_ge; lia).
  simpl.
  destruct (termLoop_spec (Runs s) (BaseC s) i rw_pos0) as (t & E & N); [lia|].
  exists t; split; auto. unfold pTermAt.
  replace (pBase p <? i) with true by (symmetry; apply Z.ltb_lt; lia).
  rewrite <- rw_exp0, <- rw_base0. auto.
Qed.

Lemma getTerm_base : forall s p, refW s p -> 0 < pBase p ->
  getTermForIndex s (pBase p) = Ok (CompactTerm s).
Proof.
  intros s p [] Hb. unfold getTermForIndex. rewrite rw_base0.
  rewrite Z.eqb_refl. replace (0 <? pBase p) with true by (symmetry; apply Z.ltb_lt; lia). auto.
Qed.

Lemma getTerm_out : forall s p i, refW s p -> (i < pBase p \/ pEnd p < i) ->
  getTermForIndex s i = Ok (-1).
Proof.
  intros s p i H Hi. pose proof (refW_elen _ _ H) as He. pose proof (elen_nonneg (Runs s)). destruct H.
  unfold getTermForIndex.
  replace (i =? BaseC s) with false by (symmetry; apply Z.eqb_neq; lia).
  rewrite andb_false_r.
  destruct (Z.ltb_spec i (BaseC s)); auto.
  destruct (Z.ltb_spec (Endi s) i); auto. lia.
Qed.

Lemma skipn_repeat : forall A (x : A) n m, skipn n (repeat x m) = repeat x (m - n).
Proof.
  induction n; intros; simpl. { rewrite Nat.sub_0_r. auto. }
  destruct m; simpl; auto.
Qed.

(** CompactNewBeg *)
Lemma compactLoop_spec : forall rs base b, posRuns rs -> base < b <= base + elen rs ->
  exists rs', compactLoop base b rs = Ok rs' /\ posRuns rs' /\
    expand rs' = skipn (Z.to_nat (b - 1 - base)) (expand rs).
Proof.
  induction rs as [|r rs IH]; intros base b Hp Hb.
  - rewrite elen_nil in Hb; lia.
  - inversion Hp as [|? ? Hr Hrs]; subst. rewrite elen_cons in Hb by auto. simpl.
    destruct (Z.eqb_spec b (base + 1)).
    + eexists; split; [reflexivity|]. split; auto. replace (b - 1 - base) with 0 by lia. reflexivity.
    + destruct (Z.ltb_spec base b); [|lia].
      destruct (Z.leb_spec b (base + rCount r)); simpl.
      * eexists; split; [reflexivity|]. split; [constructor; simpl; auto; lia|].
        simpl. rewrite skipn_app, repeat_length.
        replace (Z.to_nat (b - 1 - base) - Z.to_nat (rCount r))%nat with 0%nat by lia. simpl.
        f_equal. rewrite skipn_repeat. f_equal. lia.
      * destruct (IH (base + rCount r) b Hrs) as (rs' & E & P & X); [lia|].
        exists rs'; split; auto. split; auto. rewrite X.
        rewrite skipn_app, repeat_length.
        rewrite (skipn_all2 (repeat _ _)) by (rewrite repeat_length; lia).
        simpl. f_equal. lia.
Qed.

Lemma skipn_last : forall A (l : list A) x, skipn (length l) (l ++ [x]) = [x].
Proof. intros. rewrite skipn_app, skipn_all, Nat.sub_diag. reflexivity. Qed.

Lemma CompactNewBeg_ok : forall s p b, refW s p -> (b = 0 \/ pBase p < b <= pEnd p) ->
  (pBase p = 0 -> CompactTerm s = 0 \/ b <> 1) ->
  exists s', CompactNewBeg s b = Ok s' /\ refW s' (pstep p (OpCompact b)) /\
    (CompactTerm s = pBaseTerm p -> CompactTerm s' = pBaseTerm (pstep p (OpCompact b))).
Proof.
  intros s p b H Hb Hct. pose proof (refW_elen _ _ H) as He.
  pose proof (elen_nonneg (Runs s)) as Hnn.
  pose proof H as H0. destruct H0.
  unfold CompactNewBeg.
  replace (b <? 0) with false by (symmetry; apply Z.ltb_ge; lia).
  replace (BaseC s <? 0) with false by (symmetry; apply Z.ltb_ge; lia).
  replace (Endi s <? 0) with false by (symmetry; apply Z.ltb_ge; lia).
  destruct (Z.eqb_spec b 0).
  { subst b. eexists; split; [reflexivity|]. simpl. split; auto.
    constructor; simpl; auto; try lia. constructor. }
  assert (Hb' : pBase p < b <= pEnd p) by lia.
  assert (Hct' : exists ct, (if b =? 1 then Ok 0 else getTermForIndex s (b - 1)) = Ok ct /\
            (CompactTerm s = pBaseTerm p -> ct = pBaseTerm (pstep p (OpCompact b)))).
  { simpl. replace (b =? 0) with false by (symmetry; apply Z.eqb_neq; lia). simpl.
    destruct (Z.eqb_spec b 1).
    - exists 0; split; auto. intros. subst b.
      assert (pBase p = 0) by lia. rewrite H1. simpl.
      destruct (Hct H1); lia.
    - destruct (Z.eq_dec (b - 1) (pBase p)).
      + exists (CompactTerm s). rewrite e. rewrite Z.eqb_refl. split; auto.
        apply getTerm_base; auto. lia.
      + destruct (getTerm_in s p (b - 1) H) as (t & T & G); [lia|].
        exists t. split; auto. intros.
        replace (b - 1 =? pBase p) with false by (symmetry; apply Z.eqb_neq; lia).
        rewrite T. auto. }
  destruct Hct' as (ct & Ect & Hctp). rewrite Ect. unfold bind at 1.
  replace (b <=? BaseC s) with false by (symmetry; apply Z.leb_gt; lia).
  replace (Endi s =? 0) with false by (symmetry; apply Z.eqb_neq; lia).
  assert (Hgoal : forall rs', posRuns rs' ->
      expand rs' = skipn (Z.to_nat (b - 1 - pBase p)) (pTerms p) ->
      refW (mkRle (b - 1) (Endi s) rs' ct) (pstep p (OpCompact b))).
  { intros rs' Hp' Hx. simpl. replace (b =? 0) with false by (symmetry; apply Z.eqb_neq; lia).
    constructor; simpl; auto; try lia.
    unfold pEnd; simpl. rewrite skipn_length. rewrite rw_endi0 in *. unfold pEnd in *. lia. }
  destruct (Z.eqb_spec b (Endi s)).
  - destruct (rev (Runs s)) as [|r rest] eqn:E.
    { assert (Runs s = []). { rewrite <- (rev_involutive (Runs s)), E. auto. }
      rewrite H0, elen_nil in He. lia. }
    apply rev_cons_last in E.
    eexists; split; [reflexivity|]. split; [|exact Hctp].
    apply Hgoal. repeat constructor.
    assert (Hr : 0 < rCount r).
    { rewrite E in rw_pos0. apply posRuns_app in rw_pos0. destruct rw_pos0 as [_ X]. inversion X; auto. }
    rewrite <- rw_exp0, E, expand_app. simpl. rewrite app_nil_r.
    destruct (Z.to_nat (rCount r)) as [|m] eqn:Em; [lia|].
    rewrite <- repeat_snoc, app_assoc.
    replace (Z.to_nat (b - 1 - pBase p)) with (length (expand (rev rest) ++ repeat (rTerm r) m)).
    { rewrite skipn_last. reflexivity. }
    assert (Hl: elen (Runs s) = Z.of_nat (S (length (expand (rev rest) ++ repeat (rTerm r) m)))).
    { unfold elen. rewrite E, expand_app. simpl. rewrite app_nil_r, Em.
      rewrite !app_length, !repeat_length. lia. }
    lia.
  - replace (Endi s <? b) with false by (symmetry; apply Z.ltb_ge; lia).
    destruct (Runs s) as [|r [|r2 rs]] eqn:E.
    + rewrite elen_nil in He; lia.
    + eexists; split; [reflexivity|]. split; [|exact Hctp]. apply Hgoal.
      * repeat constructor; simpl; lia.
      * rewrite <- rw_exp0. simpl. rewrite !app_nil_r.
        inversion rw_pos0; subst. rewrite elen_cons in He by auto. rewrite elen_nil in He.
        rewrite skipn_repeat. f_equal. lia.
    + destruct (compactLoop_spec (r :: r2 :: rs) (BaseC s) b) as (rs' & X & P & Y); auto; [lia|].
      rewrite X. unfold bind at 1. eexists; split; [reflexivity|]. split; [|exact Hctp]. apply Hgoal; auto.
      rewrite Y, <- rw_exp0, rw_base0. reflexivity.
Qed.
