(** * Circuits: who was told, who closed, who sent the notice *)

From Coq Require Import ZArith List Bool Arith Lia.
From Verif Require Import Ckt_Model Ckt_Spec Ckt_View Ckt_Proofs Ckt_Proofs2 Ckt_Proofs3 Ckt_Proofs4 Ckt_Proofs5.
Import ListNotations.

Fixpoint closedN (c : nat) (x : bool) (h : list event) : nat :=
  match h with
  | [] => 0
  | EClosed _ c' x' _ :: r => (if same c c' x x' then 1 else 0) + closedN c x r
  | _ :: r => closedN c x r
  end.

Definition fin (c : nat) (x : bool) (s : state) : Prop :=
  In EDown (hist s) \/ In (EFin c x) (hist s) \/ In (c, x, None) (bg s) \/ In (EFinLost c x) (hist s).

Record einv (s : state) : Prop := mkEinv {
  nHalt : forall c x, eCanc (endOf x (getC c s)) = true -> eHalt (endOf x (getC c s)) = true;
  nClosed : forall c x, closedN c x (hist s) = if eCanc (endOf x (getC c s)) then 1 else 0;
  nDown : connUp s = false -> In EDown (hist s);
  nFin : forall p c x, In (EClosed p c x false) (hist s) -> eReason (endOf x (getC c s)) = None -> fin c x s;
  nCount : forall p, tolds p (hist s) = openCount p s + closeds p (hist s) }.

Definition calm (e : event) : Prop :=
  match e with ETold _ _ _ | EClosed _ _ _ _ => False | _ => True end.

Record frame (s s' : state) : Prop := mkFrame {
  fMap : forall p, pMap (getP p s') = pMap (getP p s);
  fCanc : forall c x, eCanc (endOf x (getC c s')) = eCanc (endOf x (getC c s));
  fEnd : forall c x, eCanc (endOf x (getC c s)) = true -> eHalt (endOf x (getC c s)) = true ->
    eReason (endOf x (getC c s')) = eReason (endOf x (getC c s)) /\ eHalt (endOf x (getC c s')) = true;
  fBg : bg s' = bg s;
  fUp : connUp s' = connUp s;
  fHist : exists es, hist s' = es ++ hist s /\ Forall calm es }.

Lemma calm_closedN : forall c x es h, Forall calm es -> closedN c x (es ++ h) = closedN c x h.
Proof. intros c x es h H. induction H as [|e es C H IH]; [reflexivity|]. destruct e; cbn in *; auto; contradiction. Qed.
Lemma calm_tolds : forall p es h, Forall calm es -> tolds p (es ++ h) = tolds p h.
Proof. intros p es h H. induction H as [|e es C H IH]; [reflexivity|]. destruct e; cbn in *; auto; contradiction. Qed.
Lemma calm_closeds : forall p es h, Forall calm es -> closeds p (es ++ h) = closeds p h.
Proof. intros p es h H. induction H as [|e es C H IH]; [reflexivity|]. destruct e; cbn in *; auto; contradiction. Qed.

Lemma closedN_in : forall p c x b h, In (EClosed p c x b) h -> closedN c x h <> 0.
Proof.
  intros p c x b h H. induction h as [|e h IH]; [destruct H|]. destruct H as [->|H].
  - cbn. rewrite same_refl. discriminate.
  - specialize (IH H). destruct e; cbn; auto. destruct (same _ _ _ _); auto.
Qed.

Lemma in_closedN : forall c x h, closedN c x h <> 0 -> exists p b, In (EClosed p c x b) h.
Proof.
  intros c x h. induction h as [|e h IH]; [cbn; congruence|]. intro H.
  assert (R : closedN c x h <> 0 -> exists p b, In (EClosed p c x b) (e :: h)).
  { intro Q. destruct (IH Q) as (p & b & K). exists p, b. right. exact K. }
  destruct e; cbn in H; auto. destruct (same c c0 x x0) eqn:E; [|auto].
  apply same_spec in E as [<- <-]. exists p, byEnd. left. reflexivity.
Qed.

Lemma closed_canc : forall s p c x b, einv s -> In (EClosed p c x b) (hist s) -> eCanc (endOf x (getC c s)) = true.
Proof.
  intros s p c x b E H. pose proof (nClosed _ E c x) as Q. apply closedN_in in H.
  destruct (eCanc (endOf x (getC c s))); [reflexivity|congruence].
Qed.

Lemma frame_inv : forall s s', einv s -> frame s s' -> einv s'.
Proof.
  intros s s' E [F1 F2 F3 F4 F5 [es [F6 F7]]].
  assert (CE : forall p c x b, In (EClosed p c x b) (hist s') -> In (EClosed p c x b) (hist s)).
  { intros p c x b H. rewrite F6 in H. apply in_app_or in H as [H|H]; [|exact H].
    rewrite Forall_forall in F7. specialize (F7 _ H). destruct F7. }
  constructor.
  - intros c x H. rewrite F2 in H. exact (proj2 (F3 c x H (nHalt _ E c x H))).
  - intros c x. rewrite F6, calm_closedN, F2 by exact F7. apply (nClosed _ E).
  - rewrite F5, F6. intro H. apply in_or_app. right. apply (nDown _ E H).
  - intros p c x H R. apply CE in H.
    pose proof (closed_canc s p c x false E H) as CN. destruct (F3 c x CN (nHalt _ E c x CN)) as [Q _].
    rewrite Q in R. destruct (nFin _ E p c x H R) as [K|[K|[K|K]]]; unfold fin; rewrite F4, F6; [left|right; left|right; right; left|right; right; right];
      try (apply in_or_app; right); exact K.
  - intro p. unfold openCount. rewrite F6, calm_tolds, calm_closeds, F1 by exact F7. apply (nCount _ E p).
Qed.

Lemma fr_refl : forall s, frame s s.
Proof. intro s. constructor; auto. exists []. split; [reflexivity|constructor]. Qed.

Lemma fr_trans : forall a b c, frame a b -> frame b c -> frame a c.
Proof.
  intros a b c [A1 A2 A3 A4 A5 [ea [A6 A7]]] [B1 B2 B3 B4 B5 [eb [B6 B7]]]. constructor.
  - intro p. rewrite B1. apply A1.
  - intros i x. rewrite B2. apply A2.
  - intros i x H K. destruct (A3 i x H K) as [Q1 Q2]. destruct (B3 i x) as [Q3 Q4]; [rewrite A2; exact H|exact Q2|].
    split; [rewrite Q3; exact Q1|exact Q4].
  - rewrite B4. exact A4.
  - rewrite B5. exact A5.
  - exists (eb ++ ea). rewrite B6, A6, app_assoc. split; [reflexivity|]. apply Forall_app. auto.
Qed.

Lemma fr_log : forall e s, calm e -> frame s (log e s).
Proof. intros e s C. constructor; auto. exists [e]. split; [reflexivity|]. constructor; [exact C|constructor]. Qed.
Lemma fr_wire : forall t v s, frame s (setWire t v s).
Proof. intros. constructor; auto. exists []. split; [reflexivity|constructor]. Qed.
Lemma fr_boot : forall t v s, frame s (setBoot t v s).
Proof. intros. constructor; auto. exists []. split; [reflexivity|constructor]. Qed.
Lemma fr_sends : forall v s, frame s (setSends v s).
Proof. intros. constructor; auto. exists []. split; [reflexivity|constructor]. Qed.
Lemma fr_updP : forall p f s, (forall a, pMap (f a) = pMap a) -> frame s (updP p f s).
Proof.
  intros p f s H. constructor; auto.
  - intro q. apply (fldP _ pMap). exact H.
  - exists []. split; [reflexivity|constructor].
Qed.
Lemma fr_updC : forall c f s,
  (forall x, eCanc (endOf x (f (getC c s))) = eCanc (endOf x (getC c s))) ->
  (forall x, eCanc (endOf x (getC c s)) = true -> eHalt (endOf x (getC c s)) = true ->
    eReason (endOf x (f (getC c s))) = eReason (endOf x (getC c s)) /\ eHalt (endOf x (f (getC c s))) = true) ->
  frame s (updC c f s).
Proof.
  intros c f s H1 H2. constructor; auto.
  - intros d x. rewrite getC_updC. destruct ((d =? c) && _) eqn:E; [|reflexivity].
    apply andb_true_iff in E as [E _]. apply Nat.eqb_eq in E. subst d. apply H1.
  - intros d x A B. rewrite getC_updC. destruct ((d =? c) && _) eqn:E; [|auto].
    apply andb_true_iff in E as [E _]. apply Nat.eqb_eq in E. subst d. apply H2; assumption.
  - exists []. split; [reflexivity|constructor].
Qed.
Lemma fr_setEnd : forall c x f s,
  (forall e, eCanc (f e) = eCanc e) -> (forall e, eHalt e = true -> eReason (f e) = eReason e /\ eHalt (f e) = true) ->
  frame s (updC c (setEnd x f) s).
Proof.
  intros c x f s H1 H2. apply fr_updC.
  - intro y. rewrite endOf_setEnd. destruct (Bool.eqb y x); auto.
  - intros y A B. rewrite endOf_setEnd. destruct (Bool.eqb y x); auto.
Qed.
Lemma fr_put : forall c x t d s, frame s (put c x t d s).
Proof. intros. apply fr_wire. Qed.

(** ** Cleaning up *)

Lemma einv_bg : forall c x r s, einv s -> einv (setBg (bg s ++ [(c, x, r)]) s).
Proof.
  intros c x r s E. destruct E. constructor; auto.
  intros p c' x' H R. destruct (nFin0 p c' x' H R) as [K|[K|[K|K]]]; unfold fin; cbn; auto.
  right. right. left. apply in_or_app. left. exact K.
Qed.

Lemma putLog_einv : forall c x t d s, einv s -> einv (putLog c x t d s).
Proof.
  intros c x t d s E. apply (frame_inv s); [exact E|]. unfold putLog. eapply fr_trans; [apply fr_put|].
  apply fr_log. destruct t; exact I.
Qed.

Lemma tellOther_einv : forall c x n b r s, einv s -> einv (tellOther c x n b r s).
Proof.
  intros c x n b r s E. unfold tellOther. destruct (n && connUp s); [|exact E]. destruct b.
  - apply einv_bg. exact E.
  - apply putLog_einv. exact E.
Qed.

Lemma tellOther_hist : forall c x n b r s, exists es, hist (tellOther c x n b r s) = es ++ hist s /\ Forall calm es /\
  (forall c' x' r', In (c', x', r') (bg s) -> In (c', x', r') (bg (tellOther c x n b r s))) /\
  (n = true -> r = None -> connUp s = true -> In (EFin c x) es \/ In (c, x, None) (bg (tellOther c x n b r s))).
Proof.
  intros c x n b r s. unfold tellOther. destruct (n && connUp s) eqn:Q.
  - destruct b.
    + exists []. split; [reflexivity|]. split; [constructor|]. split.
      * intros c' x' r' H. cbn. apply in_or_app. left. exact H.
      * intros _ -> _. right. cbn. apply in_or_app. right. left. reflexivity.
    + exists [putEv c x (match r with Some _ => TErr | None => TEnd end) (match r with Some d => d | None => 0%Z end)].
      split; [reflexivity|]. split; [constructor; [destruct r; exact I|constructor]|]. split; [auto|].
      intros _ -> _. left. left. reflexivity.
  - exists []. split; [reflexivity|]. split; [constructor|]. split; [auto|]. intros -> _ H. cbn in Q. congruence.
Qed.

Lemma delN_len : forall c l, NoDup l -> In c l -> length l = S (length (delN c l)).
Proof.
  intros c l N H. induction N as [|a l NI N IH]; [destruct H|]. cbn [delN filter length].
  destruct (Nat.eqb_spec c a) as [E|E]; cbn [negb].
  - subst a. fold (delN c l). f_equal. clear IH H N.
    assert (Q : delN c l = l); [|rewrite Q; reflexivity].
    induction l as [|b l IH]; [reflexivity|]. cbn. destruct (Nat.eqb_spec c b) as [E|E].
    + subst b. exfalso. apply NI. left. reflexivity.
    + cbn. f_equal. apply IH. intro H. apply NI. right. exact H.
  - fold (delN c l). cbn [length]. destruct H as [H|H]; [congruence|]. rewrite <- (IH H). reflexivity.
Qed.

Lemma cleanup_einv : forall p n busy c s, sinv s -> einv s -> einv (cleanup p n busy c s).
Proof.
  intros p n busy c s S E. destruct (memN c (pMap (getP p s))) eqn:MM; [|unfold cleanup; rewrite MM; exact E].
  apply memN_in in MM. destruct (iMap _ S p c MM) as (L & PL & PE & LV & TD & CN).
  rewrite (cleanup_eq p n busy c s MM). set (x := endAt p (getC c s)) in *. set (r := eReason (endOf x (getC c s))).
  destruct (tellOther_hist c x n busy r (cutS p c x s)) as (es & HE & HC & HB & HF).
  change (hist (cutS p c x s)) with (hist s) in HE. change (bg (cutS p c x s)) with (bg s) in HB.
  change (connUp (cutS p c x s)) with (connUp s) in HF.
  set (s2 := tellOther c x n busy r (cutS p c x s)) in *.
  assert (GC : forall c' x', endOf x' (getC c' s2) = if same c' c x' x then setCanc (endOf x (getC c s)) else endOf x' (getC c' s)).
  { intros c' x'. transitivity (endOf x' (getC c' (cutS p c x s))).
    - unfold s2, tellOther. destruct (n && _); [destruct busy|]; reflexivity.
    - unfold cutS. rewrite getC_updC. change (ckts (updP p _ s)) with (ckts s). pose proof L as L'. apply Nat.ltb_lt in L'.
      rewrite L', andb_true_r. unfold same. destruct (Nat.eqb_spec c' c) as [->|N]; cbn [andb]; [|reflexivity].
      rewrite endOf_setEnd. destruct (Bool.eqb x' x) eqn:Q; [|reflexivity]. apply eqb_prop in Q. subst x'. reflexivity. }
  assert (GP : forall q, pMap (getP q s2) = if q =? p then delN c (pMap (getP p s)) else pMap (getP q s)).
  { intro q. transitivity (pMap (getP q (cutS p c x s))).
    - unfold s2, tellOther. destruct (n && _); [destruct busy|]; reflexivity.
    - unfold cutS. rewrite getP_updC, getP_updP. apply Nat.ltb_lt in PL. rewrite PL, andb_true_r.
      destruct (Nat.eqb_spec q p) as [->|N]; reflexivity. }
  assert (UE : connUp s2 = connUp s).
  { unfold s2, tellOther. destruct (n && _); [destruct busy|]; reflexivity. }
  clearbody s2.
  assert (CE : forall p' c' x' b, In (EClosed p' c' x' b) (es ++ hist s) -> In (EClosed p' c' x' b) (hist s)).
  { intros p' c' x' b H. apply in_app_or in H as [H|H]; [|exact H]. rewrite Forall_forall in HC. destruct (HC _ H). }
  constructor.
  - intros c' x'.
    assert (Q : getC c' (log (EClosed p c x (negb n)) s2) = getC c' s2) by reflexivity. rewrite Q, GC.
    destruct (same c' c x' x); [reflexivity|apply (nHalt _ E)].
  - intros c' x'. assert (Q : getC c' (log (EClosed p c x (negb n)) s2) = getC c' s2) by reflexivity. rewrite Q, GC.
    cbn [log hist closedN]. rewrite HE, calm_closedN by exact HC. rewrite (nClosed _ E c' x').
    destruct (same c' c x' x) eqn:QS; [|reflexivity]. apply same_spec in QS as [-> ->]. rewrite CN. reflexivity.
  - intro H. change (connUp (log (EClosed p c x (negb n)) s2)) with (connUp s2) in H. rewrite UE in H.
    cbn [log hist]. right. rewrite HE. apply in_or_app. right. apply (nDown _ E H).
  - intros p' c' x' H R.
    assert (Q : getC c' (log (EClosed p c x (negb n)) s2) = getC c' s2) by reflexivity. rewrite Q, GC in R.
    assert (HH : In EDown (hist s) \/ In (EFin c' x') (es ++ hist s) \/ In (c', x', None) (bg s2) \/ In (EFinLost c' x') (hist s)).
    { cbn [log hist] in H. destruct H as [H|H].
      - injection H as <- <- <- HN. apply negb_false_iff in HN. rewrite same_refl in R.
        destruct (connUp s) eqn:U; [|left; apply (nDown _ E U)].
        destruct (HF HN R eq_refl) as [K|K]; [right; left; apply in_or_app; left; exact K|right; right; left; exact K].
      - rewrite HE in H. apply CE in H.
        assert (QS : same c' c x' x = false).
        { destruct (same c' c x' x) eqn:QS; [|reflexivity]. apply same_spec in QS as [-> ->].
          rewrite (closed_canc s p' c x false E H) in CN. discriminate. }
        rewrite QS in R. destruct (nFin _ E p' c' x' H R) as [K|[K|[K|K]]];
          [left; exact K|right; left; apply in_or_app; right; exact K|right; right; left; apply HB; exact K
          |right; right; right; exact K]. }
    unfold fin. cbn [log hist bg]. rewrite HE.
    destruct HH as [K|[K|[K|K]]]; [left; right; apply in_or_app; right; exact K|right; left; right; exact K
      |right; right; left; exact K|right; right; right; right; apply in_or_app; right; exact K].
  - intro q. cbn [log hist tolds closeds]. rewrite HE, calm_tolds, calm_closeds by exact HC.
    unfold openCount. change (getP q (log (EClosed p c x (negb n)) s2)) with (getP q s2). rewrite GP, (nCount _ E q).
    unfold openCount. destruct (Nat.eqb_spec q p) as [->|N]; [|reflexivity].
    rewrite (delN_len c (pMap (getP p s)) (iMapND _ S p) MM). lia.
Qed.

Lemma cleanups_einv : forall p busy cs s, sinv s -> idle p s -> einv s -> einv (cleanups p busy cs s).
Proof.
  intros p busy cs. induction cs as [|c cs IH]; intros s S ID E; [exact E|]. cbn [cleanups].
  destruct (cleanup_ok p busy c s S ID) as (S2 & ID2 & _). apply IH; auto. apply cleanup_einv; assumption.
Qed.

(** ** Being told *)

Lemma einv_tell : forall p c x s, einv s -> p < length (peers s) ->
  einv (log (ETold p c x) (updP p (fun a => setMap (c :: pMap a) a) s)).
Proof.
  intros p c x s E PL. destruct E. constructor.
  - exact nHalt0.
  - exact nClosed0.
  - intro H. right. exact (nDown0 H).
  - intros p' c' x' H R. cbn [log hist] in H. destruct H as [H|H]; [discriminate|].
    destruct (nFin0 p' c' x' H R) as [K|[K|[K|K]]]; unfold fin; cbn [log hist bg]; [left|right; left|right; right; left|right; right; right];
      try (right; exact K); exact K.
  - intro q. cbn [log hist tolds closeds]. unfold openCount in *.
    change (hist (updP p (fun a => setMap (c :: pMap a) a) s)) with (hist s). rewrite (nCount0 q).
    assert (Q : getP q (log (ETold p c x) (updP p (fun a => setMap (c :: pMap a) a) s)) = getP q (updP p (fun a => setMap (c :: pMap a) a) s)) by reflexivity.
    rewrite Q, getP_updP. apply Nat.ltb_lt in PL. rewrite PL, andb_true_r.
    destruct (Nat.eqb_spec q p) as [->|N]; [cbn; reflexivity|reflexivity].
Qed.

(** ** Every op *)

Lemma remAt_other : forall (A : Type) i (l : list A) y z, nth_error l i = Some z -> In y l -> y = z \/ In y (remAt i l).
Proof.
  intros A i l. revert i. induction l as [|a l IH]; intros [|i] y z H K; cbn in *; try discriminate.
  - injection H as ->. destruct K as [->|K]; auto.
  - destruct K as [->|K]; auto. destruct (IH i y z H K); auto.
Qed.

Ltac fr := repeat first [ eapply fr_trans; [|apply fr_log; exact I] | eapply fr_trans; [|apply fr_updP; reflexivity]
  | eapply fr_trans; [|apply fr_wire] | eapply fr_trans; [|apply fr_boot] | eapply fr_trans; [|apply fr_sends] ].

Lemma down_einv : forall s, einv s -> einv (downC s).
Proof.
  intros s E. destruct E. constructor; auto.
  - intros _. left. reflexivity.
  - intros p c x _ _. left. left. reflexivity.
Qed.

Lemma openC_frame : forall p q tf s, frame s (openC p q tf s).
Proof.
  intros p q tf s. unfold openC. destruct (_ && _ && _ && _); [|apply fr_refl].
  set (nk := mkCkt p q _ _ _ _).
  assert (G : forall c, getC c (setCkts (ckts s ++ [nk]) s) = getC c s \/
    (getC c s = noCkt /\ (getC c (setCkts (ckts s ++ [nk]) s) = nk \/ getC c (setCkts (ckts s ++ [nk]) s) = noCkt))).
  { intro c. unfold getC. cbn [setCkts ckts]. destruct (Nat.lt_ge_cases c (length (ckts s))) as [L|L].
    - left. apply app_nth1. exact L.
    - right. split; [apply nth_overflow; exact L|]. rewrite app_nth2 by exact L.
      destruct (c - length (ckts s)) as [|n]; [left; reflexivity|right; destruct n; reflexivity]. }
  constructor; auto.
  - intros c x. destruct (G c) as [->|[-> [-> | ->]]]; destruct x; reflexivity.
  - intros c x A B. destruct (G c) as [->|[Q _]]; [auto|]. rewrite Q in A. destruct x; discriminate.
  - exists []. split; [reflexivity|constructor].
Qed.

Lemma setHalt_canc : forall c x r s, einv s -> frame s (updC c (setEnd x (setHalt r)) s).
Proof.
  intros c x r s E. apply fr_setEnd; [reflexivity|]. intros e H. cbn. rewrite H. auto.
Qed.

Theorem step_einv : forall cap s o, sinv s -> vinvs s -> einv s -> einv (step cap s o).
Proof.
  intros cap s o S V E. destruct o; cbn [step].
  - apply (frame_inv s _ E). apply openC_frame.
  - unfold tellC. destruct (_ && _ && _ && _) eqn:Q; [|exact E].
    apply andb_true_iff in Q as [Q _]. apply andb_true_iff in Q as [Q _]. apply andb_true_iff in Q as [Q _]. apply Nat.ltb_lt in Q.
    apply einv_tell; [|apply (iStatic _ S c Q)]. apply (frame_inv s _ E). apply fr_setEnd; [reflexivity|auto].
  - unfold startC. destruct (_ && _ && _ && _ && _); [|exact E]. apply (frame_inv s _ E). fr.
    apply fr_updC; [intro x; destruct x; reflexivity|intros [] A B; auto].
  - unfold sendC. destruct (_ && _ && _); [|exact E]. apply (frame_inv s _ E). apply fr_sends.
  - unfold putC. destruct (nth_error (sends s) i) as [[[[c x] k] d]|]; [|exact E].
    destruct (connUp s); apply (frame_inv s _ E); [|apply fr_sends]. fr. apply fr_refl.
  - unfold recvC. destruct (given c x s); [|exact E]. destruct (queue _ _); [exact E|].
    apply (frame_inv s _ E). fr. apply fr_setEnd; [intro; destruct k; reflexivity|intros e H; destruct k; auto].
  - unfold closeC. destruct (given c x s); [|exact E]. destruct (pUp _); apply (frame_inv s _ E); fr; apply setHalt_canc; exact E.
  - apply (frame_inv s _ E). apply fr_updP. reflexivity.
  - apply down_einv. exact E.
  - unfold bgPut. destruct (nth_error (bg s) i) as [[[c x] r]|] eqn:EN; [|exact E].
    assert (EQ : hist (notice c x r (setBg (remAt i (bg s)) s)) = (match r with Some d => ESent c x true d | None => EFin c x end) :: hist s)
      by (destruct r; reflexivity).
    assert (BG : bg (notice c x r (setBg (remAt i (bg s)) s)) = remAt i (bg s)) by (destruct r; reflexivity).
    assert (UP : connUp (notice c x r (setBg (remAt i (bg s)) s)) = connUp s) by (destruct r; reflexivity).
    assert (GC : forall c', getC c' (notice c x r (setBg (remAt i (bg s)) s)) = getC c' s) by (intro; destruct r; reflexivity).
    assert (GP : forall p, getP p (notice c x r (setBg (remAt i (bg s)) s)) = getP p s) by (intro; destruct r; reflexivity).
    set (s2 := notice _ _ _ _) in *. clearbody s2. destruct E. constructor.
    + intros c' x'. rewrite GC. apply nHalt0.
    + intros c' x'. rewrite GC, EQ. rewrite <- nClosed0. destruct r; reflexivity.
    + rewrite UP, EQ. intro H. right. apply nDown0. exact H.
    + intros p c' x' H R. rewrite GC in R. rewrite EQ in H.
      assert (H' : In (EClosed p c' x' false) (hist s)) by (destruct H as [H|H]; [destruct r; discriminate|exact H]).
      unfold fin. rewrite EQ, BG. destruct (nFin0 p c' x' H' R) as [K|[K|[K|K]]].
      * left. right. exact K.
      * right. left. right. exact K.
      * destruct (remAt_other _ _ _ _ _ EN K) as [Q|Q].
        -- injection Q as <- <- <-. right. left. left. reflexivity.
        -- right. right. left. exact Q.
      * right. right. right. right. exact K.
    + intro p. unfold openCount in *. rewrite GP, EQ. rewrite <- (nCount0 p) || idtac. pose proof (nCount0 p) as N. destruct r; cbn [tolds closeds]; lia.
  - unfold bgQuit. destruct (nth_error (bg s) i) as [[[c x] r]|] eqn:EN; [|exact E].
    destruct E. constructor; auto.
    + intro H. right. apply nDown0. exact H.
    + intros p c' x' H R. cbn [log hist] in H. destruct H as [H|H]; [discriminate|].
      destruct (nFin0 p c' x' H R) as [K|[K|[K|K]]]; unfold fin; cbn [log hist bg setBg].
      * left. right. exact K.
      * right. left. right. exact K.
      * destruct (remAt_other _ _ _ _ _ EN K) as [Q|Q].
        -- injection Q as <- <- <-. right. right. right. left. reflexivity.
        -- right. right. left. exact Q.
      * right. right. right. right. exact K.
  - unfold bootC. destruct (boot t s); [exact E|]. destruct (wire t s) as [|m r] eqn:EW; [exact E|].
    destruct (mTyp m) eqn:ET; try exact E. destruct (negb _); [apply down_einv; exact E|]. destruct (takesNew _); [|exact E].
    assert (HIn : In m (wire t s)) by (rewrite EW; left; reflexivity).
    destruct (iWire _ S t m HIn) as (L & SD & PE & TO). specialize (TO ET).
    set (f := setEnd false _). set (s1 := updC (mCid m) f (setWire t r s)).
    assert (NB : kB (getC (mCid m) s) = noEnd).
    { apply (iNoB _ S). destruct (eLive (kB (getC (mCid m) s))) eqn:Q; [|reflexivity].
      pose proof (iNoStart _ S (mCid m) t (or_intror Q)) as Q2. rewrite EW in Q2. cbn in Q2. unfold badStart in Q2 at 1.
      rewrite Nat.eqb_refl, ET in Q2. discriminate. }
    assert (E1 : einv s1).
    { apply (frame_inv s _ E). eapply fr_trans; [apply fr_wire|]. apply fr_updC.
      - intro x. change (getC (mCid m) (setWire t r s)) with (getC (mCid m) s). unfold f. rewrite endOf_setEnd.
        destruct x; [reflexivity|]. cbn. rewrite NB. reflexivity.
      - intros x. change (getC (mCid m) (setWire t r s)) with (getC (mCid m) s). unfold f. rewrite endOf_setEnd.
        destruct x; cbn; [auto|]. rewrite NB. discriminate. }
    assert (PL : mTo m < length (peers s1)).
    { change (peers s1) with (peers s). rewrite TO. apply (iStatic _ S _ L). }
    pose proof (einv_tell (mTo m) (mCid m) false s1 E1 PL) as E2.
    apply (frame_inv _ _ E2). constructor; auto. exists []. split; [reflexivity|constructor].
  - unfold firstC. destruct (boot t s) as [[c d]|]; [|exact E]. destruct took.
    + destruct (_ <? cap); [|exact E]. apply (frame_inv s _ E). fr. apply fr_setEnd; [reflexivity|auto].
    + destruct (eHalt _); [|exact E]. apply (frame_inv s _ E). fr. apply fr_refl.
  - unfold msgC. destruct (boot t s); [exact E|]. destruct (wire t s) as [|m r]; [exact E|].
    destruct (mTyp m); try exact E; (destruct (_ <? cap); [|exact E]); apply (frame_inv s _ E); fr; apply fr_refl.
  - unfold dropC. destruct (boot t s); [exact E|]. destruct (wire t s) as [|m r]; [exact E|].
    destruct (mTyp m); try exact E; (destruct (_ <? cap); [exact E|]); apply (frame_inv s _ E); fr; apply fr_refl.
  - unfold pClose. destruct (nth_error _ i) as [c|]; [|exact E].
    pose proof (setClosing_sinv p (fun a => remAt i (pClosing a)) s S) as S1.
    destruct (pPump (getP p s)); try exact E.
    + apply cleanup_einv; [exact S1|]. apply (frame_inv s _ E). apply fr_updP. reflexivity.
    + apply (frame_inv s _ E). fr. apply fr_refl.
  - unfold pRead. destruct (pPump (getP p s)) eqn:EP; try exact E. destruct (pReads (getP p s)) as [|m r] eqn:ER; [exact E|].
    pose proof (setPReads_sinv p m r s S ER) as S1.
    destruct (memN _ _).
    + destruct (mTyp m); try (apply (frame_inv s _ E); fr; apply fr_refl).
      apply cleanup_einv; [exact S1|]. apply (frame_inv s _ E). apply fr_updP. reflexivity.
    + destruct (eCanc _); apply (frame_inv s _ E); fr; apply fr_refl.
  - unfold pErr. destruct (pPump (getP p s)) eqn:EP; try exact E. destruct (pErrs (getP p s)) as [|m r] eqn:ER; [exact E|].
    destruct (memN _ _); [|destruct (eCanc _)]; apply (frame_inv s _ E); fr; apply fr_refl.
  - unfold pPut. destruct (pPump (getP p s)) as [|c0 d late|c0 d|] eqn:EP; try exact E.
    + destruct (_ <? cap); [|exact E].
      destruct (deliver_good p false c0 d s S (ex_intro _ late EP)) as [G1 ID].
      apply cleanups_einv; [exact (proj1 G1)|exact ID|]. apply (frame_inv s _ E). fr. apply fr_setEnd; [reflexivity|auto].
    + destruct (_ <? cap); [|exact E]. apply (frame_inv s _ E). fr. apply fr_setEnd; [reflexivity|auto].
  - unfold pTwo. destruct (pPump (getP p s)) as [|c0 d late|c0 d|] eqn:EP; try exact E.
    destruct (_ <? cap); [exact E|]. apply cleanups_einv.
    + apply setPump_sinv; [exact S|exact I].
    + left. rewrite getP_self; [reflexivity|]. apply pump_lt. rewrite EP. discriminate.
    + apply (frame_inv s _ E). fr. apply fr_refl.
  - unfold pFive. destruct (pPump (getP p s)) as [|c0 d late|c0 d|] eqn:EP; try exact E.
    destruct late as [|l late]; [exact E|]. destruct (_ <? cap); [exact E|].
    assert (PL : p < length (peers s)) by (apply pump_lt; rewrite EP; discriminate).
    apply cleanups_einv.
    + apply sinv_log; [apply setPump_sinv; [exact S|exact I]|]. cbn.
      pose proof (iDeliv _ S p) as D. rewrite EP in D. apply (iMap _ S p c0 D).
    + left. transitivity (pPump (getP p (updP p (setPump Idle) s))); [reflexivity|]. rewrite getP_self by exact PL. reflexivity.
    + apply (frame_inv s _ E). fr. apply fr_refl.
  - unfold pHalted. destruct (pPump (getP p s)) as [|c0 d late|c0 d|] eqn:EP; try exact E;
      (destruct (eHalt _); [|exact E]); apply cleanups_einv;
      try (apply setPump_sinv; [exact S|exact I]);
      try (left; rewrite getP_self; [reflexivity|]; apply pump_lt; rewrite EP; discriminate);
      (apply (frame_inv s _ E); fr; apply fr_refl).
  - unfold pExit. destruct (pPump (getP p s)) eqn:EP; try exact E; (destruct (pUp (getP p s)); [exact E|]);
      apply cleanups_einv;
      try (apply setPump_sinv; [exact S|exact I]);
      try (right; rewrite getP_self; [reflexivity|]; apply pump_lt; rewrite EP; discriminate);
      (apply (frame_inv s _ E); fr; apply fr_refl).
Qed.

Lemma einv_init : forall cfg, einv (init cfg).
Proof.
  intro cfg. constructor.
  - intros c x. rewrite getC_init. destruct x; discriminate.
  - intros c x. rewrite getC_init. destruct x; reflexivity.
  - discriminate.
  - intros p c x [].
  - intro p. unfold openCount. destruct (getP_init cfg p) as (Q & _). rewrite Q. reflexivity.
Qed.

Theorem run_all : forall cap cfg os,
  sinv (run cap cfg os) /\ vinvs (run cap cfg os) /\ einv (run cap cfg os).
Proof.
  intros cap cfg os. unfold run.
  assert (G : forall s, sinv s -> vinvs s -> einv s -> sinv (fold_left (step cap) os s) /\ vinvs (fold_left (step cap) os s)
    /\ einv (fold_left (step cap) os s)).
  { induction os as [|o os IH]; intros s S V E; cbn [fold_left]; [auto|].
    destruct (step_good cap s o S V) as [S1 V1]. apply IH; [exact S1| |apply step_einv; assumption].
    intros c x k. eapply vsteps_inv; [apply V1|apply V]. }
  apply G; [apply sinv_init|apply vinvs_init|apply einv_init].
Qed.
