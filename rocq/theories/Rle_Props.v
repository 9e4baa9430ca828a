(** Property theorems for the run-length encoded log-term index (C17, C18, C19). *)
From Coq Require Import List ZArith Lia Bool.
From Verif Require Import Base Rle_Model Rle_Spec Rle_Proofs Rle_Proofs2.
Import ListNotations.
Open Scope Z_scope.

(** The API as an operation interpreter (tube/rle.go methods AddTerm, Truncate,
    CompactNewBeg). *)
Definition rleStep (s : rle) (o : lop) : res rle :=
  match o with
  | OpAdd t => AddTerm s t
  | OpTrunc k => Truncate s k
  | OpCompact b => CompactNewBeg s b
  end.

Lemma rleStep_rstep : forall os s, run_res rleStep s os = run_res rstep s os.
Proof. reflexivity. Qed.

(** C17.  Every legal history whose truncations do not stop at an existing
    interior index behaves exactly like the plain list of terms: no panic, and
    every query agrees, including at the compaction base. *)
Theorem C17_rle_refines_list_partial : forall os,
  legalAll pEmpty os -> noInteriorTrunc pEmpty os ->
  Forall (fun t => 0 <= t) (addedTerms os) ->
  let p := prun pEmpty os in
  exists s, run_res rleStep newRle os = Ok s /\
    BaseC s = pBase p /\
    lastIndex s = Ok (pEnd p) /\
    lastTerm s = pLastTerm p /\
    (forall i, pBase p < i <= pEnd p -> exists t, pTermAt p i = Some t /\ getTermForIndex s i = Ok t) /\
    (0 < pBase p -> getTermForIndex s (pBase p) = Ok (pBaseTerm p)) /\
    (forall i, i < pBase p \/ pEnd p < i -> getTermForIndex s i = Ok (-1)) /\
    (forall i, pBase p < i <= pEnd p ->
       getTermIndexStartingAt s i = Ok (pairsFrom i (skipn (Z.to_nat (i - pBase p - 1)) (pTerms p)))).
Proof.
  intros os Hl Hn Hp p.
  destruct (run_strong os newRle pEmpty) as (s & E & [R C] & _); auto using refS_empty, pinv_empty.
  fold p in R, C. exists s. rewrite rleStep_rstep. split; auto.
  split; [apply (rw_base _ _ R)|]. split; [apply lastIndex_spec; auto|].
  split; [rewrite (lastTerm_spec _ _ R), C; reflexivity|].
  split; [intros; apply getTerm_in; auto|].
  split; [intros; rewrite <- C; apply getTerm_base; auto|].
  split; [intros; eapply getTerm_out; eauto|].
  intros. eapply iter_spec; eauto.
Qed.
Print Assumptions C17_rle_refines_list_partial.

(** C17, arbitrary truncations.  When the appended terms never go below a term
    appended earlier (even a truncated one), no legal call panics and all
    entries strictly above the base are right. *)
Theorem C17_rle_refines_list_monotone : forall os,
  legalAll pEmpty os -> nondecr (0 :: addedTerms os) ->
  let p := prun pEmpty os in
  exists s, run_res rleStep newRle os = Ok s /\
    BaseC s = pBase p /\
    lastIndex s = Ok (pEnd p) /\
    (pTerms p <> [] -> lastTerm s = pLastTerm p) /\
    (forall i, pBase p < i <= pEnd p -> exists t, pTermAt p i = Some t /\ getTermForIndex s i = Ok t) /\
    (forall i, i < pBase p \/ pEnd p < i -> getTermForIndex s i = Ok (-1)) /\
    (forall i, pBase p < i <= pEnd p ->
       getTermIndexStartingAt s i = Ok (pairsFrom i (skipn (Z.to_nat (i - pBase p - 1)) (pTerms p)))).
Proof.
  intros os Hl Hn p.
  destruct (run_mono os newRle pEmpty 0) as (s & E & R); auto; try (simpl; lia).
  { apply (proj1 refS_empty). }
  { constructor. }
  fold p in R. exists s. rewrite rleStep_rstep. split; auto.
  split; [apply (rw_base _ _ R)|]. split; [apply lastIndex_spec; auto|].
  split. { intros. rewrite (lastTerm_spec _ _ R). unfold pLastTerm. apply last_default; auto. }
  split; [intros; apply getTerm_in; auto|].
  split; [intros; eapply getTerm_out; eauto|].
  intros. eapply iter_spec; eauto.
Qed.
Print Assumptions C17_rle_refines_list_monotone.

(** C17, any legal history that does not panic. *)
Theorem C17_rle_sound_when_no_panic : forall os s,
  legalAll pEmpty os -> run_res rleStep newRle os = Ok s ->
  let p := prun pEmpty os in
    BaseC s = pBase p /\ lastIndex s = Ok (pEnd p) /\
    (forall i, pBase p < i <= pEnd p -> exists t, pTermAt p i = Some t /\ getTermForIndex s i = Ok t).
Proof.
  intros os s Hl E p. rewrite rleStep_rstep in E.
  assert (R : refW s p) by (eapply run_weak; eauto; apply (proj1 refS_empty)).
  split; [apply (rw_base _ _ R)|]. split; [apply lastIndex_spec; auto|].
  intros; apply getTerm_in; auto.
Qed.
Print Assumptions C17_rle_sound_when_no_panic.

Definition demoOps : list lop :=
  [OpAdd 1; OpAdd 1; OpAdd 2; OpAdd 4; OpAdd 4; OpAdd 4; OpCompact 3; OpAdd 7; OpCompact 5; OpTrunc 9; OpAdd 7].

(** non-vacuity: a legal history with several terms and two compactions *)
Example C17_demo :
  legalAll pEmpty demoOps /\ noInteriorTrunc pEmpty demoOps /\
  Forall (fun t => 0 <= t) (addedTerms demoOps) /\ nondecr (0 :: addedTerms demoOps) /\
  prun pEmpty demoOps = mkPlog 4 4 [4; 4; 7; 7].
Proof.
  unfold demoOps. simpl. unfold pLastTerm, pEnd; simpl. repeat split; try lia; repeat constructor; try lia.
Qed.

(** C18.  The compaction term is corrupted by a truncation above the base: the
    term reported for the retained base index changes from 1 to 5. *)
Theorem C18_truncate_preserves_base_term_refuted :
  exists s k s', run_res rleStep newRle [OpAdd 1; OpAdd 5; OpAdd 5; OpCompact 2] = Ok s /\
    BaseC s < k <= Endi s /\ Truncate s k = Ok s' /\
    getTermForIndex s (BaseC s) = Ok 1 /\ BaseC s' = BaseC s /\ getTermForIndex s' (BaseC s) = Ok 5.
Proof.
  eexists _, 2, _. split; [vm_compute; reflexivity|]. split; [vm_compute; split; [auto|discriminate]|].
  split; [vm_compute; reflexivity|]. vm_compute. auto.
Qed.
Print Assumptions C18_truncate_preserves_base_term_refuted.

(** C18.  An entirely legal history (terms 5,5; drop back to one entry; drop
    everything; append term 3 to the now empty log) panics, and before that the
    empty log reports last term 5. *)
Theorem C18_legal_history_panics_refuted :
  let os := [OpAdd 5; OpAdd 5; OpTrunc 1; OpTrunc 0; OpAdd 3] in
  legalAll pEmpty os /\ run_res rleStep newRle os = Panic /\
  exists s, run_res rleStep newRle (firstn 4 os) = Ok s /\ lastTerm s = 5 /\
            pLastTerm (prun pEmpty (firstn 4 os)) = 0.
Proof.
  simpl. unfold pLastTerm, pEnd; simpl. split; [repeat split; lia|]. split; [vm_compute; reflexivity|].
  eexists; split; [vm_compute; reflexivity|]. vm_compute; auto.
Qed.
Print Assumptions C18_legal_history_panics_refuted.

(** C18, what does hold: truncation keeps every retained entry strictly above
    the base, on every log reachable by a legal history, and keeps the base
    term when it truncates exactly to the base. *)
Theorem C18_truncate_preserves_terms_partial : forall os s k,
  legalAll pEmpty os -> run_res rleStep newRle os = Ok s -> 0 <= k ->
  exists s', Truncate s k = Ok s' /\
    (forall i, BaseC s < i <= Z.min k (Endi s) -> getTermForIndex s' i = getTermForIndex s i) /\
    (BaseC s <= k -> BaseC s' = BaseC s /\ Endi s' = Z.min k (Endi s)) /\
    (k = BaseC s -> 0 < k -> getTermForIndex s' k = getTermForIndex s k).
Proof.
  intros os s k Hl E Hk. rewrite rleStep_rstep in E.
  assert (R : refW s (prun pEmpty os)) by (eapply run_weak; eauto; apply (proj1 refS_empty)).
  set (p := prun pEmpty os) in *.
  destruct (Truncate_ok s p k R Hk) as (s' & E' & R' & C1 & C2 & _).
  exists s'. split; auto. pose proof (rw_base _ _ R) as HB. pose proof (rw_endi _ _ R) as HE.
  pose proof (rw_base _ _ R') as HB'. pose proof (rw_endi _ _ R') as HE'.
  pose proof (refW_elen _ _ R) as HL. pose proof (elen_nonneg (Runs s)) as HN.
  simpl pstep in R', HB', HE'.
  split; [|split].
  - intros i Hi. destruct (Z.ltb_spec k (pBase p)); [lia|].
    destruct (getTerm_in s p i R) as (t & T & G); [lia|]. rewrite G.
    destruct (getTerm_in s' _ i R') as (t' & T' & G').
    { unfold pEnd; simpl. rewrite firstn_length. unfold pEnd in *. lia. }
    rewrite G'. f_equal. unfold pTermAt in *. simpl in T'.
    destruct (pBase p <? i) eqn:Eb; [|discriminate].
    assert (X : forall n m (l : list Z), (m < n)%nat -> nth_error (firstn n l) m = nth_error l m).
    { clear. induction n; intros [|m] [|x l] H; simpl; auto; try lia. apply IHn; lia. }
    rewrite X in T' by lia. congruence.
  - intros. destruct (Z.ltb_spec k (pBase p)); [lia|]. simpl in HB', HE'. split; [lia|].
    unfold pEnd in HE', HE. simpl in HE'. rewrite firstn_length in HE'. lia.
  - intros Hkb Hk0. destruct (Z.ltb_spec k (pBase p)); [lia|].
    assert (Hk' : k = pBase p) by lia.
    rewrite Hk' at 2. rewrite (getTerm_base s p R) by lia.
    rewrite <- C2 by auto. rewrite Hk'. apply (getTerm_base s' _ R'). simpl. lia.
Qed.
Print Assumptions C18_truncate_preserves_terms_partial.

(** C18/C17: iterating from the base index itself mislabels every entry: the
    entry at base+1 is yielded with index base, and so on. *)
Theorem C17_iterate_from_base_refuted :
  exists s, run_res rleStep newRle [OpAdd 1; OpAdd 5; OpAdd 6; OpCompact 2] = Ok s /\
    BaseC s = 1 /\ getTermForIndex s 2 = Ok 5 /\
    getTermIndexStartingAt s 1 = Ok [(1, 1); (5, 1); (6, 2)].
Proof. eexists; split; [vm_compute; reflexivity|]. vm_compute; auto. Qed.
Print Assumptions C17_iterate_from_base_refuted.

(** C19.  Logs built by appending: Extends is exactly "follower is a prefix of
    leader" and the index is the length of the longest common prefix. *)
Theorem C19_extends_is_longest_common_prefix : forall LT FT,
  nondecr (0 :: LT) -> nondecr (0 :: FT) ->
  exists l f e c,
    run_res rleStep newRle (map OpAdd LT) = Ok l /\
    run_res rleStep newRle (map OpAdd FT) = Ok f /\
    Extends (Some l) (Some f) = Ok (e, c, false) /\
    (e = true <-> isPrefix FT LT) /\
    0 <= c /\ isLcp FT LT (Z.to_nat c).
Proof.
  intros LT FT HL HF.
  destruct (adds_represents LT HL) as (l & El & Rl & Bl).
  destruct (adds_represents FT HF) as (f & Ef & Rf & Bf).
  destruct (Extends_spec l f LT FT Rl Rf) as (e & c & ns & E & C0 & _ & S).
  - rewrite Bf. reflexivity.
  - rewrite Bl. reflexivity.
  - intros. rewrite Bl in *. lia.
  - assert (ns = false).
    { clear S. unfold Extends in E.
      repeat match type of E with
      | (if ?b then _ else _) = _ => destruct b eqn:?
      | bind ?m _ = _ => destruct m as [[? ?]|] eqn:?; unfold bind in E; try discriminate
      end; try (inversion E; auto; fail);
      repeat match goal with H : (_ <? _) = true |- _ => apply Z.ltb_lt in H | H : (_ <=? _) = true |- _ => apply Z.leb_le in H
        | H : (_ =? _) = false |- _ => apply Z.eqb_neq in H | H : (_ && _) = false |- _ => rewrite Bl, Bf in H; simpl in H; try discriminate end; try lia. }
    subst ns. destruct (S eq_refl). exists l, f, e, c. rewrite !rleStep_rstep. auto 10.
Qed.
Print Assumptions C19_extends_is_longest_common_prefix.

Example C19_demo : nondecr (0 :: [3; 4; 5; 6; 7]) /\ nondecr (0 :: [3; 5; 7]) /\
  isLcp [3; 5; 7] [3; 4; 5; 6; 7] 1 /\ ~ isPrefix [3; 5; 7] [3; 4; 5; 6; 7].
Proof.
  simpl. repeat split; simpl; try lia.
  - intros x y Hx Hy. inversion Hx; inversion Hy; lia.
  - intros [c Hc]. discriminate.
Qed.

(** C19 with compaction on either side (logs built by any history of appends
    and compactions; [LT], [FT] are the complete term histories).  Correct
    provided the compacted parts really are common: the follower's compacted
    prefix is in the leader's log and, if the follower's log reaches beyond the
    leader's compaction point, the two agree up to that point. *)
Theorem C19_extends_with_compaction_partial : forall osL osF l f,
  legalAll pEmpty osL -> growOnly osL -> Forall (fun t => 0 <= t) (addedTerms osL) ->
  legalAll pEmpty osF -> growOnly osF -> Forall (fun t => 0 <= t) (addedTerms osF) ->
  run_res rleStep newRle osL = Ok l -> run_res rleStep newRle osF = Ok f ->
  let LT := addedTerms osL in
  let FT := addedTerms osF in
  firstn (Z.to_nat (BaseC f)) FT = firstn (Z.to_nat (BaseC f)) LT ->
  (BaseC l < Z.of_nat (length FT) ->
     firstn (Z.to_nat (BaseC l)) FT = firstn (Z.to_nat (BaseC l)) LT) ->
  (BaseC l = Z.of_nat (length FT) -> (0 < length FT)%nat ->
     last FT 0 = nth (Z.to_nat (BaseC l - 1)) LT 0 -> FT = firstn (length FT) LT) ->
  exists e c needSnapshot, Extends (Some l) (Some f) = Ok (e, c, needSnapshot) /\ 0 <= c /\
    firstn (Z.to_nat c) FT = firstn (Z.to_nat c) LT /\
    (needSnapshot = false -> (e = true <-> isPrefix FT LT) /\ isLcp FT LT (Z.to_nat c)).
Proof.
  intros osL osF l f L1 L2 L3 F1 F2 F3 El Ef LT FT. rewrite rleStep_rstep in El, Ef.
  destruct (reachable_represents osL L1 L2 L3) as (l' & El' & Rl).
  destruct (reachable_represents osF F1 F2 F3) as (f' & Ef' & Rf).
  assert (l' = l) by congruence. assert (f' = f) by congruence. subst.
  apply Extends_spec; auto.
Qed.
Print Assumptions C19_extends_with_compaction_partial.

Definition demoL := [OpAdd 1; OpAdd 1; OpAdd 2; OpCompact 3; OpAdd 4; OpAdd 4].
Definition demoF := [OpAdd 1; OpAdd 1; OpAdd 2; OpAdd 3; OpCompact 2].
Example C19_compaction_demo :
  exists l f, run_res rleStep newRle demoL = Ok l /\ run_res rleStep newRle demoF = Ok f /\
   BaseC l = 2 /\ BaseC f = 1 /\
   legalAll pEmpty demoL /\ growOnly demoL /\ Forall (fun t => 0 <= t) (addedTerms demoL) /\
   legalAll pEmpty demoF /\ growOnly demoF /\ Forall (fun t => 0 <= t) (addedTerms demoF) /\
   firstn 1 (addedTerms demoF) = firstn 1 (addedTerms demoL) /\
   firstn 2 (addedTerms demoF) = firstn 2 (addedTerms demoL) /\
   Extends (Some l) (Some f) = Ok (false, 3, false).
Proof.
  eexists _, _. split; [vm_compute; reflexivity|]. split; [vm_compute; reflexivity|].
  unfold demoL, demoF; simpl; unfold pLastTerm, pEnd; simpl.
  repeat match goal with |- _ /\ _ => split end; auto; try (right; lia); try lia;
    repeat (constructor; try lia).
Qed.

(** C19.  Without that proviso the answer is wrong: the leader compacted at 5,
    the follower's log diverged at index 4 but reaches index 7.  The reported
    "largest common index" is 5 although the logs only agree up to 3. *)
Theorem C19_extends_with_compaction_refuted :
  let osL := [OpAdd 1; OpAdd 1; OpAdd 1; OpAdd 3; OpAdd 3; OpAdd 4; OpCompact 6] in
  let osF := map OpAdd [1; 1; 1; 2; 2; 2; 2] in
  legalAll pEmpty osL /\ growOnly osL /\ legalAll pEmpty osF /\
  exists l f c, run_res rleStep newRle osL = Ok l /\ run_res rleStep newRle osF = Ok f /\
    Extends (Some l) (Some f) = Ok (false, c, false) /\
    isLcp (addedTerms osF) (addedTerms osL) 3 /\ c = 5.
Proof.
  simpl. unfold pLastTerm, pEnd; simpl. split; [repeat split; lia|].
  split; [repeat constructor; lia|]. split; [repeat split; lia|].
  eexists _, _, _. split; [vm_compute; reflexivity|]. split; [vm_compute; reflexivity|].
  split; [vm_compute; reflexivity|]. split; auto.
  unfold isLcp; simpl. repeat split; try lia. intros x y Hx Hy; inversion Hx; inversion Hy; lia.
Qed.
Print Assumptions C19_extends_with_compaction_refuted.

(** C19.  A leader whose log is shorter than the follower's compaction point is
    reported as extending a follower that has no uncompacted entries. *)
Theorem C19_extends_short_leader_refuted :
  exists l f, run_res rleStep newRle (map OpAdd [1; 1; 1]) = Ok l /\
    run_res rleStep newRle [OpAdd 1; OpAdd 1; OpAdd 1; OpAdd 1; OpAdd 1; OpCompact 5; OpTrunc 4] = Ok f /\
    BaseC f = 4 /\ Endi l = 3 /\ Extends (Some l) (Some f) = Ok (true, 4, false).
Proof.
  eexists _, _. split; [vm_compute; reflexivity|]. split; [vm_compute; reflexivity|]. vm_compute; auto.
Qed.
Print Assumptions C19_extends_short_leader_refuted.
