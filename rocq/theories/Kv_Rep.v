(** Clocks, catching up, and scans. *)
From Coq Require Import List ZArith Lia Bool Sorted.
From Verif Require Import Base Kv_Model Kv_Spec Kv_Proofs Kv_Hist.
Import ListNotations.
Open Scope Z_scope.

Lemma readLeaf_noauto : forall now s tab key, NoAuto s -> readLeaf now s tab key = (s, findLeaf s tab key).
Proof.
  intros now s tab key H. unfold readLeaf. destruct (findLeaf s tab key) as [l|] eqn:F; auto.
  rewrite autoDeletes_auto; auto. eauto.
Qed.

Definition somes (ls : list (bytes * leaf)) : list (bytes * option leaf) := map (fun kl => (fst kl, Some (snd kl))) ls.

Lemma scan_noauto : forall now up tab ls s, (forall k l, In (k, l) ls -> lAuto l = false) -> scanLoop now up tab ls s = (s, somes ls).
Proof.
  induction ls as [|(k, l) ls IH]; intros s H; cbn [scanLoop]; auto.
  rewrite autoDeletes_auto by (apply (H k); now left). rewrite IH; [reflexivity|]. intros k' l' I. apply (H k'). now right.
Qed.

Lemma noauto_in : forall s tab m k l, WfStore s -> NoAuto s -> mget tab s = Some m -> In (k, l) m -> lAuto l = false.
Proof.
  intros s tab m k l W H M I. apply (H tab k). unfold findLeaf. rewrite M. apply sorted_get; auto. now apply (proj2 W tab).
Qed.

Lemma scan_of : forall now s tab m seen up, WfStore s -> NoAuto s -> mget tab s = Some m -> incl seen m ->
  forall s0, scanLoop now up tab seen s0 = (s0, somes seen).
Proof.
  intros now s tab m seen up W H M I s0. apply scan_noauto. intros k l J. eapply noauto_in; eauto.
Qed.

Lemma seen_incl : forall (b : bool) f g (m : table), incl (if b then rev (filter f m) else filter g m) m.
Proof.
  intros b f g m x I. destruct b; [rewrite <- in_rev in I|]; now apply filter_In in I as (I & _).
Qed.
Lemma seenR_incl : forall (lo b : bool) f g (m : table), incl (if lo then [] else if b then rev (filter f m) else filter g m) m.
Proof. intros [] b f g m; [intros x []|apply seen_incl]. Qed.
Lemma seenP_incl : forall (b : bool) p q f g (m : table),
  incl (if b then takePrefix p (rev (filter f m)) else takePrefix q (filter g m)) m.
Proof.
  intros b p q f g m x I. destruct b; apply takePrefix_incl in I; [rewrite <- in_rev in I|]; now apply filter_In in I as (I & _).
Qed.

(** Without auto-deletion the clock does not matter. *)
Lemma apply_clock : forall drift n1 n2 s t, WfStore s -> NoAuto s -> apply drift n1 s t = apply drift n2 s t.
Proof.
  intros drift n1 n2 s t W H. unfold apply. destruct (qOp (tReq t)); try reflexivity.
  - unfold doDeleteKey. now rewrite !readLeaf_noauto.
  - unfold doShowKeys. destruct s as [|p s0]; auto. remember (p :: s0) as s eqn:Es. clear Es.
    destruct (qTable (tReq t)) as [|x q]; auto. destruct (mget (x :: q) s) eqn:M; auto.
    rewrite !(scan_of _ s (x :: q) _ _ _ W H M) by (intros y I; exact I). reflexivity.
  - unfold doReadKey. now rewrite !readLeaf_noauto.
  - unfold rangeScan. destruct (mget (qTable (tReq t)) s) eqn:M; auto.
    rewrite !(scan_of _ s _ _ _ _ W H M) by apply seenR_incl. reflexivity.
  - unfold prefixScan. destruct (mget (qTable (tReq t)) s) eqn:M; auto.
    rewrite !(scan_of _ s _ _ _ _ W H M) by apply seenP_incl. reflexivity.
Qed.

(** The leaves after an entry, without auto-deletion: old ones and the written one. *)
Lemma apply_leaves : forall drift now s t s' t' tab key l, WfStore s -> NoAuto s -> apply drift now s t = Ok (s', t') ->
  findLeaf s' tab key = Some l -> (exists tab0, findLeaf s tab0 key = Some l) \/ exists o, Written t o l.
Proof.
  intros drift now s t s' t' tab key l W H A F.
  destruct (isWrite_dec t) as [I|I].
  { pose proof (write_inv _ _ _ _ _ _ I A) as [(-> & _)|(_ & _ & _ & l' & -> & Wr & _)]; [eauto|].
    rewrite find_put in F. destruct (beqb tab (qTable (tReq t)) && beqb key (qKey (tReq t))); [|eauto].
    injection F as <-. eauto. }
  left. unfold apply in A. destruct (qOp (tReq t)) eqn:O.
  - exfalso. apply I. now left.
  - exfalso. apply I. now right.
  - injection A as <- <-. unfold doMakeTable in F. destruct (qTable (tReq t)) as [|x q]; [eauto|].
    destruct (mget (x :: q) s); [eauto|]. unfold findLeaf in F. rewrite mget_mput in F.
    destruct (beqb tab (x :: q)); [discriminate|]. exists tab. exact F.
  - injection A as <- <-. unfold doDeleteTable in F. destruct (qTable (tReq t)) as [|x q]; [eauto|].
    unfold findLeaf in F. rewrite mget_mdel in F. destruct (beqb tab (x :: q)); [discriminate|]. exists tab. exact F.
  - injection A as A. unfold doRenameTable in A. destruct s as [|p s0]; [injection A as <- <-; eauto|].
    remember (p :: s0) as s eqn:Es. clear Es.
    destruct (qTable (tReq t)) as [|x q]; [injection A as <- <-; eauto|].
    destruct (qNewTable (tReq t)) as [|x' q']; [injection A as <- <-; eauto|].
    destruct (beqb_spec (x' :: q') (x :: q)) as [E|E]; [injection A as <- <-; eauto|].
    destruct (mget (x' :: q') s) eqn:M; [injection A as <- <-; eauto|].
    destruct (mget (x :: q) s) eqn:M'; injection A as <- <-; [|eauto].
    rewrite mget_rename in F by auto. destruct (beqb tab (x :: q)); [discriminate|].
    destruct (beqb tab (x' :: q')); [|eauto]. exists (x :: q). unfold findLeaf. now rewrite M'.
  - injection A as A. unfold doDeleteKey in A. destruct (mget (qTable (tReq t)) s) as [m|]; [|injection A as <- <-; eauto].
    rewrite readLeaf_noauto in A by auto.
    assert (D : forall x, findLeaf (delLeaf s (qTable (tReq t)) (qKey (tReq t))) tab key = Some x -> findLeaf s tab key = Some x).
    { intros x X. rewrite find_del in X. destruct (beqb tab (qTable (tReq t)) && beqb key (qKey (tReq t))); [discriminate|auto]. }
    destruct (findLeaf s (qTable (tReq t)) (qKey (tReq t))) as [l0|]; [|injection A as <- <-; eauto].
    destruct (noLease l0); [injection A as <- <-; eauto|].
    destruct (beqb (lLeasor l0) (iLeasor (tInfo t))); [injection A as <- <-; eauto|].
    destruct (lUntil l0 + drift <? qTm (tReq t)); injection A as <- <-; eauto.
  - injection A as A. apply showKeys_state in A as [->|(m & seen & r & up & M & Inc & A)]; [eauto|].
    rewrite (scan_of _ s _ _ _ _ W H M Inc) in A. injection A as <- <-. rewrite find_ensureDead in F. eauto.
  - injection A as A. unfold doReadKey in A. rewrite readLeaf_noauto in A by auto.
    destruct (findLeaf s (qTable (tReq t)) (qKey (tReq t))); injection A as <- <-; eauto.
  - injection A as A. apply rangeScan_state in A as [->|(m & seen & r & up & M & Inc & A)]; [eauto|].
    rewrite (scan_of _ s _ _ _ _ W H M Inc) in A. injection A as <- <-. rewrite find_ensureDead in F. eauto.
  - injection A as A. apply prefixScan_state in A as [->|(m & seen & r & up & M & Inc & A)]; [eauto|].
    rewrite (scan_of _ s _ _ _ _ W H M Inc) in A. injection A as <- <-. rewrite find_ensureDead in F. eauto.
  - injection A as <- <-. eauto.
Qed.

Lemma noauto_apply : forall drift now s t s' t', WfStore s -> NoAuto s -> NoAutoT t -> apply drift now s t = Ok (s', t') -> NoAuto s'.
Proof.
  intros drift now s t s' t' W H T A tab key l F.
  destruct (apply_leaves _ _ _ _ _ _ _ _ _ W H A F) as [(tab0 & F0)|(o & Wr)]; [eauto|].
  rewrite (w_auto _ _ _ Wr). exact T.
Qed.

Lemma applyAll_clock : forall drift log c1 c2 s, WfStore s -> NoAuto s -> Forall NoAutoT log ->
  applyAll drift c1 s log = applyAll drift c2 s log.
Proof.
  induction log as [|t log IH]; intros c1 c2 s W H T; cbn [applyAll]; auto. inversion T as [|? ? T1 T2]; subst.
  rewrite (apply_clock drift (hd 0 c1) (hd 0 c2) s t W H). unfold bind.
  destruct (apply drift (hd 0 c2) s t) as [(s1, t1)|] eqn:A; auto. cbn [fst].
  rewrite (IH (tl c1) (tl c2)); auto; [eapply wf_apply|eapply noauto_apply]; eauto.
Qed.

(** ** Tickets sent again. *)

(** The fields of a ticket that decide what a write does to the store. *)
Definition core (t : ticket) := (tReq t, tVal t, (iVtype (tInfo t), iLeasor (tInfo t), iUntil (tInfo t), iAuto (tInfo t))).

Lemma core_inv : forall t u, core t = core u ->
  tReq u = tReq t /\ tVal u = tVal t /\ iVtype (tInfo u) = iVtype (tInfo t) /\ iLeasor (tInfo u) = iLeasor (tInfo t) /\
  iUntil (tInfo u) = iUntil (tInfo t) /\ iAuto (tInfo u) = iAuto (tInfo t).
Proof. intros t u H. unfold core in H. injection H as -> -> -> -> -> ->. repeat split. Qed.

Lemma kvw_core : forall drift now im s t u s' t' b, core t = core u ->
  kvstoreWrite drift now false im s t = Ok (s', t', b) -> exists u', kvstoreWrite drift now false im s u = Ok (s', u', b).
Proof.
  intros drift now im s t u s' t' b C H. apply core_inv in C as (C1 & C2 & C3 & C4 & C5 & C6).
  unfold kvstoreWrite, extendedLeaf, freshLeaf in *. rewrite C1, C2, C3, C4, C5, C6. cbn [negb andb] in *.
  destruct (qTm (tReq t) =? 0); [discriminate|].
  destruct findLeaf as [l|]; [|injection H as <- <- <-; eexists; reflexivity].
  repeat (match type of H with (if ?c then _ else _) = _ => destruct c end;
    [injection H as <- <- <-; eexists; reflexivity|]).
  injection H as <- <- <-; eexists; reflexivity.
Qed.

Lemma casWrite_core : forall drift s t u s' t', core t = core u ->
  casWrite drift s t = Ok (s', t') -> exists u', casWrite drift s u = Ok (s', u').
Proof.
  unfold casWrite, bind. intros drift s t u s' t' C H.
  destruct (kvstoreWrite drift 0 false false s t) as [((s1, t1), b)|] eqn:E; [|discriminate].
  destruct (kvw_core _ _ _ _ _ _ _ _ _ C E) as (u' & ->). injection H as <- <-. eexists. reflexivity.
Qed.

Lemma validLease_req : forall drift t u l, tReq u = tReq t -> validLease drift u l = validLease drift t l.
Proof. intros. unfold validLease. congruence. Qed.

Lemma doCAS_core : forall drift s t u s' t', core t = core u ->
  doCAS drift s t = Ok (s', t') -> exists u', doCAS drift s u = Ok (s', u').
Proof.
  intros drift s t u s' t' C H. pose proof (core_inv _ _ C) as (C1 & C2 & C3 & C4 & C5 & C6). unfold doCAS in *. rewrite C1, C4.
  destruct findLeaf as [l|].
  - rewrite (validLease_req drift t u l C1).
    destruct (validLease drift t l && negb (beqb (lLeasor l) (iLeasor (tInfo t)))); [injection H as <- <-; eexists; reflexivity|].
    destruct (0 <? qOldVersion (tReq t)).
    { destruct (negb (qOldVersion (tReq t) =? lVersion l)); [injection H as <- <-; eexists; reflexivity|]. eapply casWrite_core; eauto. }
    destruct (0 <? qOldEpoch (tReq t)).
    { destruct (negb (qOldEpoch (tReq t) =? lEpoch l)); [injection H as <- <-; eexists; reflexivity|]. eapply casWrite_core; eauto. }
    destruct (qOldVal (tReq t)); [eapply casWrite_core; eauto|].
    destruct beqb; [eapply casWrite_core; eauto|]. injection H as <- <-; eexists; reflexivity.
  - destruct ((0 <? qOldVersion (tReq t)) || (0 <? qOldEpoch (tReq t))); [injection H as <- <-; eexists; reflexivity|].
    destruct (qOldVal (tReq t)); [eapply casWrite_core; eauto|]. injection H as <- <-; eexists; reflexivity.
Qed.

(** A write that failed fails again when it is sent with the current lease in it. *)
Lemma refail : forall drift now im s t l, findLeaf s (qTable (tReq t)) (qKey (tReq t)) = Some l ->
  qTm (tReq t) <> 0 -> iUntil (tInfo t) = lUntil l + drift ->
  (qIndex (tReq t) <= lIndex l \/
   noLease l = false /\ qDur (tReq t) <> 0 /\ drift = 0 \/
   noLease l = false /\ qTm (tReq t) <= lUntil l + drift /\ (qDur (tReq t) = 0 \/ lPeer l <> qFrom (tReq t))) ->
  exists t', kvstoreWrite drift now false im s t = Ok (s, t', false).
Proof.
  intros drift now im s t l F T U C. unfold kvstoreWrite. cbn [negb andb]. apply Z.eqb_neq in T. rewrite T, F.
  destruct (qIndex (tReq t) <=? lIndex l) eqn:E1; [eexists; reflexivity|].
  destruct C as [C|[(N & D & Z0)|(N & Tm & C)]]; [lia| |]; rewrite N.
  - apply Z.eqb_neq in D. rewrite D. cbn [negb andb]. rewrite U, Z0.
    replace (lUntil l + 0 <=? lUntil l) with true by lia. eexists; reflexivity.
  - destruct (negb (qDur (tReq t) =? 0) && (iUntil (tInfo t) <=? lUntil l)); [eexists; reflexivity|].
    replace (negb (qDur (tReq t) =? 0) && beqb (lLeasor l) (iLeasor (tInfo t)) && beqb (lPeer l) (qFrom (tReq t))) with false.
    2: { destruct C as [->|C]; [reflexivity|]. apply beqb_false in C. rewrite C, andb_false_r. reflexivity. }
    replace (0 <? qTm (tReq t) - (lUntil l + drift)) with false by lia. eexists; reflexivity.
Qed.

Lemma doCAS_refail : forall drift s t l, findLeaf s (qTable (tReq t)) (qKey (tReq t)) = Some l ->
  (CasHolds (tReq t) (Some l) -> exists t', kvstoreWrite drift 0 false false s t = Ok (s, t', false)) ->
  exists t', doCAS drift s t = Ok (s, t').
Proof.
  intros drift s t l F C. unfold doCAS. rewrite F.
  assert (K : CasHolds (tReq t) (Some l) -> exists t', casWrite drift s t = Ok (s, t')).
  { intros Hc. destruct (C Hc) as (t' & E). unfold casWrite, bind. rewrite E. eexists. reflexivity. }
  clear C. cbn [CasHolds] in K.
  destruct (validLease drift t l && negb (beqb (lLeasor l) (iLeasor (tInfo t)))); [eexists; reflexivity|].
  destruct (0 <? qOldVersion (tReq t)) eqn:E1.
  { destruct (qOldVersion (tReq t) =? lVersion l) eqn:E2; cbn [negb]; [|eexists; reflexivity].
    apply K. repeat split; intros; lia. }
  destruct (0 <? qOldEpoch (tReq t)) eqn:E2.
  { destruct (qOldEpoch (tReq t) =? lEpoch l) eqn:E3; cbn [negb]; [|eexists; reflexivity].
    apply K. repeat split; intros; lia. }
  destruct (qOldVal (tReq t)) eqn:E3.
  { apply K. repeat split; intros; try lia. congruence. }
  destruct (beqb_spec (lVal l) (z :: b)); [|eexists; reflexivity].
  apply K. repeat split; intros; try lia. congruence.
Qed.

Lemma granted_core : forall l t0 t, core (granted l t0 t) = core t.
Proof. reflexivity. Qed.

(** When may a node be sent the tickets as another node left them? *)
Definition CatchUp (drift : Z) (name : bytes -> bytes) (s : store) (t t' : ticket) : Prop :=
  drift = 0 \/ (NamedS name s /\ NamedT name t /\ tErr t' <> Some ShorterLease).

Lemma wcase_tm : forall drift now im s t r, kvstoreWrite drift now false im s t = Ok r -> qTm (tReq t) <> 0.
Proof.
  intros drift now im s t r H. unfold kvstoreWrite in H. cbn [negb andb] in H.
  destruct (qTm (tReq t) =? 0) eqn:E; [discriminate|]. lia.
Qed.

(** A failed write: the conditions of [refail]. *)
Lemma refail_cond : forall drift name s t l e t',
  findLeaf s (qTable (tReq t)) (qKey (tReq t)) = Some l -> CatchUp drift name s t t' -> tErr t' = Some e ->
  WhyFailed drift t l e ->
  qIndex (tReq t) <= lIndex l \/
   noLease l = false /\ qDur (tReq t) <> 0 /\ drift = 0 \/
   noLease l = false /\ qTm (tReq t) <= lUntil l + drift /\ (qDur (tReq t) = 0 \/ lPeer l <> qFrom (tReq t)).
Proof.
  intros drift name s t l e t' F C E [(_ & R)|[(-> & N & D & _)|(-> & N & T & _ & D)]].
  - auto.
  - right. left. destruct C as [C|(_ & _ & C)]; [auto|congruence].
  - destruct (Z.eq_dec (qDur (tReq t)) 0) as [D0|D0]; [right; right; auto|].
    destruct C as [C|(NS & NT & _)]; [right; left; auto|]. right. right. split; auto. split; auto. right.
    intros P. destruct (D D0) as (_ & Nh). apply Nh. destruct NT as [NT|(NT & _)]; [|contradiction].
    split; [|congruence]. rewrite NT, <- P. symmetry. apply (NS _ _ _ F). now apply noLease_false in N as (N & _).
Qed.

Lemma apply_resent : forall drift now name s t s' t', WfStore s -> NoAuto s -> (IsWrite t -> qTm (tReq t) <> 0) ->
  apply drift now s t = Ok (s', t') -> CatchUp drift name s t t' -> exists t'', apply drift now s t' = Ok (s', t'').
Proof.
  intros drift now name s t s' t' W H T A C. unfold apply in A |- *.
  destruct (qOp (tReq t)) eqn:O.
  - (* Write *)
    unfold bind in A. destruct (kvstoreWrite drift now false false s t) as [((s1, t1), b)|] eqn:E; [|discriminate].
    injection A as <- <-. pose proof (kvw_cases _ _ _ _ _ _ _ _ E) as Wc.
    pose proof Wc as Wc0. apply wcase_inv in Wc0 as [(-> & -> & l & e & F & -> & R0)|(-> & _ & R & _)].
    + cbn [fst snd tReq writeFailed setInfo setCur setErr]. rewrite O. unfold bind.
      assert (Q : exists t2, kvstoreWrite drift now false false s (writeFailed drift l (setErr (Some e) t)) = Ok (s, t2, false)).
      { apply (refail _ _ _ _ _ l); [exact F|apply T; now left|reflexivity|].
        exact (refail_cond _ _ _ _ _ _ _ F C eq_refl R0). }
      destruct Q as (t2 & ->). eexists. reflexivity.
    + assert (Cr : core t = core t1) by (inversion Wc; reflexivity).
      rewrite R, O. unfold bind. destruct (kvw_core _ _ _ _ _ _ _ _ _ Cr E) as (u & ->). eexists. reflexivity.
  - (* Cas *)
    assert (T0 : qTm (tReq t) <> 0) by (apply T; now right).
    pose proof (cas_cases _ _ _ _ _ A) as Cc. destruct Cc as [F N|l e t1 F R E V Sw D|s' t1 b Hc Wc].
    + cbn [tReq setErr]. rewrite O. eapply doCAS_core; [|exact A]. reflexivity.
    + cbn [tReq writeFailed setInfo setCur]. rewrite R, O.
      apply (doCAS_refail _ _ _ l); [cbn [tReq writeFailed setInfo setCur]; rewrite R; exact F|].
      cbn [tReq writeFailed setInfo setCur]. rewrite R. intros X.
      destruct D as [(-> & Vl & Nn)|(_ & _ & Nc)]; [|contradiction].
      unfold validLease in Vl. apply andb_true_iff in Vl as (V1 & V2). apply negb_true_iff in V1, V2.
      apply (refail _ _ _ _ _ l); cbn [tReq tInfo writeFailed setInfo setCur iUntil]; rewrite ?R; auto.
      right. destruct (Z.eq_dec (qDur (tReq t)) 0) as [D0|D0]; [right; split; auto; split; [lia|auto]|].
      destruct C as [C|(NS & NT & _)]; [left; auto|]. right. split; auto. split; [lia|]. right.
      intros P. destruct NT as [NT|(NT & _)]; [|contradiction]. apply Nn. rewrite NT, <- P.
      apply (NS _ _ _ F). now apply noLease_false in V1 as (V1 & _).
    + pose proof Wc as Wc0. apply wcase_inv in Wc0 as [(-> & -> & l & e & F & -> & R0)|(-> & _ & R & _)].
      * cbn [tReq setSwapped writeFailed setInfo setCur setErr]. rewrite O.
        apply (doCAS_refail _ _ _ l); [exact F|]. intros _.
        apply (refail _ _ _ _ _ l); [exact F|exact T0|reflexivity|].
        exact (refail_cond _ _ _ _ _ _ _ F C eq_refl R0).
      * assert (Cr : core t = core (setSwapped (match tErr t1 with None => true | _ => false end) t1)) by (inversion Wc; reflexivity).
        cbn [tReq setSwapped]. rewrite R, O. eapply doCAS_core; eauto.
  - injection A as <- <-. rewrite O. eexists. reflexivity.
  - injection A as <- <-. rewrite O. eexists. reflexivity.
  - injection A as A. unfold doRenameTable in A. 
    assert (R : tReq t' = tReq t).
    { destruct s as [|p s0]; [injection A as <- <-; reflexivity|].
      destruct (qTable (tReq t)) as [|x q]; [injection A as <- <-; reflexivity|].
      destruct (qNewTable (tReq t)) as [|x' q']; [injection A as <- <-; reflexivity|].
      destruct (beqb (x' :: q') (x :: q)); [injection A as <- <-; reflexivity|].
      destruct (mget (x' :: q') (p :: s0)); [injection A as <- <-; reflexivity|].
      destruct (mget (x :: q) (p :: s0)); injection A as <- <-; reflexivity. }
    rewrite R, O. unfold doRenameTable. rewrite R.
    destruct s as [|p s0]; [injection A as <- <-; eexists; reflexivity|].
    destruct (qTable (tReq t)) as [|x q]; [injection A as <- <-; eexists; reflexivity|].
    destruct (qNewTable (tReq t)) as [|x' q']; [injection A as <- <-; eexists; reflexivity|].
    destruct (beqb (x' :: q') (x :: q)); [injection A as <- <-; eexists; reflexivity|].
    destruct (mget (x' :: q') (p :: s0)); [injection A as <- <-; eexists; reflexivity|].
    destruct (mget (x :: q) (p :: s0)); injection A as <- <-; eexists; reflexivity.
  - injection A as A. unfold doDeleteKey in *. rewrite readLeaf_noauto in A by auto.
    assert (R : tReq t' = tReq t /\ tInfo t' = tInfo t).
    { destruct (mget (qTable (tReq t)) s); [|injection A as <- <-; auto].
      destruct findLeaf as [l0|]; [|injection A as <- <-; auto].
      destruct (noLease l0); [injection A as <- <-; auto|].
      destruct (beqb (lLeasor l0) (iLeasor (tInfo t))); [injection A as <- <-; auto|].
      destruct (lUntil l0 + drift <? qTm (tReq t)); injection A as <- <-; auto. }
    destruct R as (R & R'). rewrite R, O, R', readLeaf_noauto by auto.
    destruct (mget (qTable (tReq t)) s); [|injection A as <- <-; eexists; reflexivity].
    destruct findLeaf as [l0|]; [|injection A as <- <-; eexists; reflexivity].
    destruct (noLease l0); [injection A as <- <-; eexists; reflexivity|].
    destruct (beqb (lLeasor l0) (iLeasor (tInfo t))); [injection A as <- <-; eexists; reflexivity|].
    destruct (lUntil l0 + drift <? qTm (tReq t)); injection A as <- <-; eexists; reflexivity.
  - injection A as A. unfold doShowKeys in *. destruct s as [|p s0]; [injection A as <- <-; cbn [tReq setErr]; rewrite O; eexists; reflexivity|].
    remember (p :: s0) as s eqn:Es. clear Es.
    destruct (qTable (tReq t)) as [|x q] eqn:Q; [injection A as <- <-; cbn [tReq setScan]; rewrite O, Q; eexists; reflexivity|].
    destruct (mget (x :: q) s) eqn:M; [|injection A as <- <-; cbn [tReq setErr setScan]; rewrite O, Q, M; eexists; reflexivity].
    rewrite (scan_of _ s (x :: q) _ _ _ W H M) in A by (intros y I; exact I). injection A as <- <-. cbn [tReq setScan].
    rewrite O, Q, M, (scan_of _ s (x :: q) _ _ _ W H M) by (intros y I; exact I). eexists. reflexivity.
  - injection A as A. unfold doReadKey in *. rewrite readLeaf_noauto in A by auto.
    assert (R : tReq t' = tReq t) by (destruct findLeaf; injection A as <- <-; reflexivity).
    rewrite R, O, readLeaf_noauto by auto. destruct findLeaf; injection A as <- <-; eexists; reflexivity.
  - injection A as A. unfold rangeScan in *.
    destruct (mget (qTable (tReq t)) s) eqn:M; [|injection A as <- <-; cbn [tReq setErr setScan]; rewrite O, M; eexists; reflexivity].
    rewrite (scan_of _ s _ _ _ _ W H M) in A by apply seenR_incl. injection A as <- <-. cbn [tReq setErr setScan].
    rewrite O, M, (scan_of _ s _ _ _ _ W H M) by apply seenR_incl. eexists. reflexivity.
  - injection A as A. unfold prefixScan in *.
    destruct (mget (qTable (tReq t)) s) eqn:M; [|injection A as <- <-; cbn [tReq setErr setScan]; rewrite O, M; eexists; reflexivity].
    rewrite (scan_of _ s _ _ _ _ W H M) in A by apply seenP_incl. injection A as <- <-. cbn [tReq setErr setScan].
    rewrite O, M, (scan_of _ s _ _ _ _ W H M) by apply seenP_incl. eexists. reflexivity.
  - injection A as <- <-. rewrite O. eexists. reflexivity.
Qed.

Lemma named_apply : forall drift now name s t s' t', WfStore s -> NoAuto s -> NamedS name s -> NamedT name t ->
  apply drift now s t = Ok (s', t') -> NamedS name s'.
Proof.
  intros drift now name s t s' t' W H NS NT A tab key l F Nl.
  destruct (apply_leaves _ _ _ _ _ _ _ _ _ W H A F) as [(tab0 & F0)|(o & Wr)]; [eauto|].
  pose proof (w_leasor _ _ _ Wr) as L. rewrite L in *. rewrite (w_peer _ _ _ Wr).
  destruct NT as [NT|(_ & NT)]; [auto|contradiction].
Qed.

Lemma applyAll_resent : forall drift name log clock clock' s s' out log',
  WfStore s -> NoAuto s -> Forall NoAutoT log -> Forall (fun t => IsWrite t -> qTm (tReq t) <> 0) log ->
  (drift = 0 \/ (NamedS name s /\ Forall (NamedT name) log /\ Forall (fun t' => tErr t' <> Some ShorterLease) out)) ->
  applyAll drift clock s log = Ok (s', out) ->
  Forall2 (fun p u => resent (fst p) (snd p) u) (combine log out) log' ->
  exists out', applyAll drift clock' s log' = Ok (s', out').
Proof.
  induction log as [|t log IH]; intros clock clock' s s' out log' W H NA T C A R; cbn [applyAll] in A.
  - injection A as <- <-. inversion R; subst. eexists. reflexivity.
  - unfold bind in A. destruct (apply drift (hd 0 clock) s t) as [(s1, t1)|] eqn:A1; [|discriminate]. cbn [fst snd] in A.
    destruct (applyAll drift (tl clock) s1 log) as [(s2, o2)|] eqn:A2; [|discriminate]. injection A as <- <-. cbn [fst snd] in *.
    cbn [combine] in R. inversion R as [|? u ? us R1 R2]; subst.
    inversion NA as [|? ? NA1 NA2]; subst. inversion T as [|? ? T1 T2]; subst.
    assert (W1 : WfStore s1) by exact (wf_apply _ _ _ _ _ _ W A1).
    assert (H1 : NoAuto s1) by exact (noauto_apply _ _ _ _ _ _ W H NA1 A1).
    assert (C1 : CatchUp drift name s t t1 /\ (drift = 0 \/ (NamedS name s1 /\ Forall (NamedT name) log /\ Forall (fun t' => tErr t' <> Some ShorterLease) o2))).
    { destruct C as [C|(NS & NT & Sh)]; [split; left; auto|]. inversion NT as [|? ? NT1 NT2]; subst. inversion Sh as [|? ? Sh1 Sh2]; subst.
      split; right; [auto|]. split; [exact (named_apply _ _ _ _ _ _ _ W H NS NT1 A1)|]. auto. }
    destruct C1 as (C1 & C2).
    assert (U : exists u', apply drift (hd 0 clock') s u = Ok (s1, u')).
    { rewrite (apply_clock drift _ (hd 0 clock) s u W H). destruct R1 as [->| ->]; cbn [fst snd]; [eauto|]. exact (apply_resent _ _ _ _ _ _ _ W H T1 A1 C1). }
    destruct U as (u' & U). destruct (IH (tl clock) (tl clock') s1 s2 o2 us W1 H1 NA2 T2 C2 A2 R2) as (out' & O').
    exists (u' :: out'). cbn [applyAll]. unfold bind. rewrite U. cbn [fst snd]. rewrite O'. reflexivity.
Qed.
