(** Properties C83-C92: the reliable membership service of /repo/tube/czar.go.
    [run drift start es] is the world after the events [es] and everything that
    could be seen from outside, in order; [drift] is ClockDriftBound. *)
From Coq Require Import List ZArith Bool Arith Lia.
Import ListNotations.
From Verif Require Import Czar_Model Czar_Spec Czar_Proofs Czar_Step Czar_Ping Czar_Runs Czar_One Czar_Main Czar_Late Czar_Dead Czar_More Czar_Told.
Local Open Scope Z_scope.

(** *** Runs for the examples. *)
Definition D : Z := 500.
Definition R (es : list ev) : world * list (Z * obs) := run D start es.
Definition becomes (i nm n : nat) (tm : Z) : list ev := [EStart i nm i; ECas i; EApply n tm; EReply i 0].
Definition joins (i nm n : nat) (tm : Z) : list ev := becomes i nm n tm ++ [EDial i true i; EPing (S n) 0; EPong i 0].
(** Process 0 is czar; 1 and then 2 join. *)
Definition base : list ev := becomes 0 10 0 1 ++ joins 1 11 1 1 ++ joins 2 12 3 1.
(** Then 0 dies, 1 takes over, and 3 joins. *)
Definition after : list ev := base ++ [EKill 0; ETick 5501; EDrop 1; ECas 1; EApply 5 5502; EReply 1 0] ++ joins 3 13 6 5502.

Definition c0 : det := Det 10 0 0.
Definition m1 : plus := Plus (Det 11 1 1) 6001.
Definition m2 : plus := Plus (Det 12 2 2) 6001.
Definition m3 : plus := Plus (Det 13 3 3) 11502.

Ltac at_ij i j tr := exists (firstn i tr), (firstn j (skipn (S i) tr)), (skipn (S j) (skipn (S i) tr)); vm_compute; reflexivity.

Lemma D0 : 0 <= D. Proof. unfold D. lia. Qed.

(** ** C83: the views handed to a user never go back. *)
Theorem C83_views_rise : forall drift es p t v l t' v' l', 0 <= drift ->
  before (snd (run drift start es)) (t, OUp p v l) (t', OUp p v' l') -> vle v v'.
Proof. intros drift es p t v l t' v' l' D1. apply views_rise. exact D1. Qed.
Print Assumptions C83_views_rise.

Example C83_ex : before (snd (R after))
  (1, OUp 1 (Vers 1 1 5001) (ML (Some c0) [m1])) (5502, OUp 1 (Vers 2 0 10502) (ML (Some (Det 11 1 1)) [])).
Proof. at_ij 5%nat 5%nat (snd (R after)). Qed.

(** ** C84: one czar at a time. *)
Theorem C84_one_czar : forall drift es i j, 0 <= drift -> steady drift start es ->
  acts (fst (run drift start es)) i -> acts (fst (run drift start es)) j -> i = j.
Proof. intros drift es i j D1. apply one_czar. exact D1. Qed.
Print Assumptions C84_one_czar.

Example C84_ex : steady D start after /\ acts (fst (R after)) 1%nat.
Proof.
  split; [vm_compute; intuition discriminate|]. eexists. split; [vm_compute; reflexivity|].
  split; [reflexivity|]. vm_compute. discriminate.
Qed.

(** The bound on the clock of Tube's leader is needed. *)
Theorem C84_clock_ahead_refuted : exists es i j, i <> j /\ acts (fst (run D start es)) i /\ acts (fst (run D start es)) j.
Proof.
  exists (becomes 0 10 0 1 ++ becomes 1 11 1 5502), 0%nat, 1%nat. split; [discriminate|].
  split; (eexists; split; [vm_compute; reflexivity|split; [reflexivity|vm_compute; discriminate]]).
Qed.
Print Assumptions C84_clock_ahead_refuted.

(** ** C85: answers to pings never go back, whoever is asked. *)
Theorem C85_answers_rise : forall drift es t q p v l t' q' p' v' l', 0 <= drift -> steady drift start es ->
  before (snd (run drift start es)) (t, OAns q p v l) (t', OAns q' p' v' l') -> vle v v'.
Proof. intros drift es t q p v l t' q' p' v' l' D1. apply answers_rise. exact D1. Qed.
Print Assumptions C85_answers_rise.

Example C85_ex : steady D start after /\ before (snd (R after))
  (1, OAns 0 2 (Vers 1 2 5001) (ML (Some c0) [m1; m2])) (5502, OAns 1 3 (Vers 2 1 10502) (ML (Some (Det 11 1 1)) [m3])).
Proof. split; [vm_compute; intuition discriminate|]. at_ij 8%nat 5%nat (snd (R after)). Qed.

(** With a clock too far ahead the old czar answers after the new one. *)
Theorem C85_clock_ahead_refuted : exists es t q p v l t' q' p' v' l',
  before (snd (run D start es)) (t, OAns q p v l) (t', OAns q' p' v' l') /\ ~ vle v v'.
Proof.
  pose (es := becomes 0 10 0 1 ++ [EStart 2 12 2; ECas 2; EApply 1 1; EReply 2 0; EDial 2 true 2] ++
              becomes 1 11 3 5502 ++ joins 3 13 4 5502 ++ [EPing 2 0]).
  exists es. do 10 eexists. split.
  - exists (firstn 7 (snd (R es))), (firstn 2 (skipn 8 (snd (R es)))), (skipn 3 (skipn 8 (snd (R es)))). vm_compute. reflexivity.
  - unfold vle. cbn. lia.
Qed.
Print Assumptions C85_clock_ahead_refuted.

(** ** C86: a version says who is in. *)
Theorem C86_same_version_same_members : forall drift es v l v' l', 0 <= drift ->
  shown (snd (run drift start es)) v l -> shown (snd (run drift start es)) v' l' -> sameVersion v v' -> who l = who l'.
Proof. intros drift es v l v' l' D1. apply views_agree. exact D1. Qed.
Print Assumptions C86_same_version_same_members.

Example C86_ex : exists v l, before (snd (R base)) (1, OUp 0 v l) (1, OUp 1 v l) /\ snd (who l) = [(11, 1)]%nat.
Proof. exists (Vers 1 1 5001), (ML (Some c0) [m1]). split; [at_ij 3%nat 1%nat (snd (R base))|reflexivity]. Qed.

(** ** C87: a member stays in the list while its lease runs. *)

(** Among the answers of one epoch, which come from one czar: a member of an
    earlier answer is missing only when its lease and the clock drift are over. *)
Theorem C87_kept_partial : forall drift es t q p v l t' q' p' v' l' m u, 0 <= drift ->
  before (snd (run drift start es)) (t, OAns q p v l) (t', OAns q' p' v' l') ->
  vEpoch v = vEpoch v' -> leased l m u -> absent l' m -> u + drift < t'.
Proof. intros drift es t q p v l t' q' p' v' l' m u D1. apply kept. exact D1. Qed.
Print Assumptions C87_kept_partial.

(** Process 1 joins, says no more, and is gone when 2 joins and pings again. *)
Definition expired : list ev :=
  becomes 0 10 0 1 ++ joins 1 11 1 1 ++ [ETick 3000; ERenew 0; EApply 3 3001; EReply 0 0; ETick 3599] ++ joins 2 12 4 6600 ++
  [EBeat 2; EPing 6 0; EPong 2 0].

Example C87_ex : exists v l v' l', before (snd (R expired)) (1, OAns 0 1 v l) (6600, OAns 0 2 v' l') /\
  vEpoch v = vEpoch v' /\ leased l 11 6001 /\ absent l' 11.
Proof.
  exists (Vers 1 1 5001), (ML (Some c0) [m1]), (Vers 1 2 8001), (ML (Some c0) []).
  split; [at_ij 4%nat 4%nat (snd (R expired))|]. split; [reflexivity|]. split; [exists m1; split; [left; reflexivity|split; reflexivity]|].
  intros e [].
Qed.

(** A new czar knows only what it had heard itself: process 2 joined after the
    last answer process 1 got, and is missing from the first answer of czar 1,
    at 5502, although its lease runs until 6001 and the user of 2 was told so. *)
Theorem C87_takeover_refuted : exists es t q p v l t' q' p' v' l' m u,
  steady D start es /\ before (snd (run D start es)) (t, OAns q p v l) (t', OAns q' p' v' l') /\
  vle v v' /\ leased l m u /\ absent l' m /\ t' < u.
Proof.
  exists after, 1, 0%nat, 2%nat, (Vers 1 2 5001), (ML (Some c0) [m1; m2]), 5502, 1%nat, 3%nat, (Vers 2 1 10502), (ML (Some (Det 11 1 1)) [m3]), 12%nat, 6001.
  split; [vm_compute; intuition discriminate|]. split; [at_ij 8%nat 5%nat (snd (R after))|]. split; [left; reflexivity|].
  split; [exists m2; split; [right; left; reflexivity|split; reflexivity]|]. split; [|lia].
  intros e [<- |[]]. discriminate.
Qed.
Print Assumptions C87_takeover_refuted.

(** ** C88: the answer to a ping lists the one who pinged. *)

(** With a lease of six seconds from the moment the ping arrived; unless the
    czar did not know the pinger yet (or not with these details), and in the
    same moment dropped somebody else. *)
Theorem C88_listed_partial : forall drift es n d q p v l, 0 <= drift -> 0 <= d <= memberLease ->
  let w := fst (run drift start es) in
  forall g P, pick n (wPings w) = Some g -> wProcs w (pTo g) = Some P ->
  In (OAns q p v l) (snd (step drift w (EPing n d))) ->
  leased l (dName (pArgs g)) (wNow w + memberLease) \/
  ((forall x, In x (lPeers (cList P)) -> eDet x <> pArgs g) /\ exists x, In x (lPeers (cList P)) /\ absent l (dName (eDet x))).
Proof.
  intros drift es n d q p v l D1 DD w g P EG EP K. destruct (reach drift D1 es) as [used IV]. fold w in IV.
  pose proof (iv_hist _ _ _ _ IV) as HO. pose proof (ho_now _ HO) as N1. cbn in N1.
  destruct (po_list _ _ _ _ (iv_proc _ _ _ _ IV _ _ EP)) as (_ & _ & ND).
  cbn [step] in K. rewrite EG, EP in K. destruct (isAm P && negb (isIdle P)); [destruct K|].
  replace (later d) with d in K by (unfold later; lia).
  destruct (handlePing drift (wNow w) d (pTo g) (pArgs g) P) as [[[Q o] a]|] eqn:HP.
  2:{ destruct K as [K|[]]. discriminate. }
  cbn [snd] in K. apply in_app_or in K. destruct K as [K|K].
  - exfalso. destruct (handlePing_spec _ _ _ _ _ _ _ _ _ HP) as [(_ & -> & _)|(_ & _ & l0 & _ & _ & _ & _ & _ & _ & _ & _ & CASES)]; [destruct K|].
    destruct CASES as [(-> & _)|(_ & _ & [-> | ->] & _)]; try (destruct K; fail). destruct K as [K|[]]; discriminate.
  - destruct a as [[v0 l0]|]; [|destruct K]. destruct K as [K|[]]. injection K as _ _ -> ->.
    apply (pinger drift _ _ _ _ _ _ _ _ _ HP); [lia|assumption|assumption].
Qed.
Print Assumptions C88_listed_partial.

Example C88_ex : exists v l, In (OAns 0 2 v l) (snd (step D (fst (R (firstn 16 base))) (EPing 4 0))) /\
  pick 4%nat (wPings (fst (R (firstn 16 base)))) = Some (Ping 2 0 (Det 12 2 2)) /\ leased l 12 6001.
Proof.
  exists (Vers 1 2 5001), (ML (Some c0) [m1; m2]). split; [vm_compute; auto|]. split; [vm_compute; reflexivity|].
  exists m2. split; [right; left; reflexivity|split; reflexivity].
Qed.

(** Otherwise false: expireSilentNodes makes the new list without the pinger. *)
Theorem C88_dropped_refuted : exists es t q p v l nm,
  steady D start es /\ In (t, OAns q p v l) (snd (run D start es)) /\ In (EStart p nm p) es /\ absent l nm.
Proof.
  exists expired, 6600, 0%nat, 2%nat, (Vers 1 2 8001), (ML (Some c0) []), 12%nat.
  split; [vm_compute; intuition discriminate|]. split; [vm_compute; do 9 right; left; reflexivity|].
  split; [vm_compute; do 16 right; left; reflexivity|]. intros e [].
Qed.
Print Assumptions C88_dropped_refuted.

(** ** C89: members do not panic. *)

(** The only ways: the first CAS is refused because of a lease in the member's
    own name; the czar's lease ends while it handles a ping; the answer to a
    heartbeat lacks the member; a member that knows no epoch dials. *)
Theorem C89_kinds_partial : forall drift es e i, 0 <= drift ->
  In (OPanic i) (snd (step drift (fst (run drift start es)) e)) -> panics (fst (run drift start es)) e i.
Proof. intros drift es e i D1. destruct (reach drift D1 es) as [used IV]. apply (panic_kind drift _ _ _ _ _ IV). Qed.
Print Assumptions C89_kinds_partial.

(** A CAS that won but whose answer did not come in time: the retry panics,
    and the key is held by nobody for the rest of the lease. *)
Theorem C89_retry_refuted : exists es, steady D start es /\ In (5502, OPanic 1) (snd (run D start es)) /\ ~ In (EKill 1) es /\
  exists l, wLeaf (fst (run D start es)) = Some l /\ fPeer l = 1%nat /\ 5502 < fUntil l.
Proof.
  exists (base ++ [EKill 0; ETick 5501; EDrop 1; ECas 1; EApply 5 5502; ETimeout 1; ECas 1; EApply 6 5502; EReply 1 0]).
  split; [vm_compute; intuition discriminate|]. split; [vm_compute; tauto|]. split; [vm_compute; intuition discriminate|].
  eexists. split; [vm_compute; reflexivity|]. split; [reflexivity|]. cbn. lia.
Qed.
Print Assumptions C89_retry_refuted.

(** A member that is started again, under its name, during its old lease. *)
Theorem C89_restart_refuted : exists es, steady D start es /\ In (1, OPanic 5) (snd (run D start es)).
Proof.
  exists (becomes 0 10 0 1 ++ [EKill 0] ++ becomes 5 10 1 1). split; [vm_compute; intuition discriminate|]. vm_compute; tauto.
Qed.
Print Assumptions C89_restart_refuted.

(** The lease of the czar ends between two looks at the clock: the czar dies. *)
Theorem C89_slow_ping_refuted : exists es, steady D start es /\ In (5002, OPanic 0) (snd (run D start es)).
Proof.
  exists (becomes 0 10 0 1 ++ [EStart 1 11 1; ECas 1; EApply 1 1; EReply 1 0; EDial 1 true 1; ETick 4999; EPing 2 2]).
  split; [vm_compute; intuition discriminate|]. vm_compute; tauto.
Qed.
Print Assumptions C89_slow_ping_refuted.

(** A heartbeat that brings to light that somebody else is silent, from a
    member whose first answer was such an answer too. *)
Theorem C89_heartbeat_refuted : exists es, steady D start es /\ In (7102, OPanic 2) (snd (run D start es)).
Proof.
  exists (becomes 0 10 0 1 ++ joins 1 11 1 1 ++ [ETick 600] ++ joins 3 13 3 601 ++
          [ETick 2400; ERenew 0; EApply 5 3001; EReply 0 0; ETick 3599] ++ joins 2 12 6 6600 ++
          [ETick 502; EBeat 2; EPing 8 0; EPong 2 0]).
  split; [vm_compute; intuition discriminate|]. vm_compute; tauto.
Qed.
Print Assumptions C89_heartbeat_refuted.

(** A new member whose refusal arrives after the end of the lease it names. *)
Theorem C89_no_czar_refuted : exists es, steady D start es /\ In (5502, OPanic 1) (snd (run D start es)).
Proof.
  exists (becomes 0 10 0 1 ++ [EStart 1 11 1; ECas 1; EApply 1 1; ETick 5501; EReply 1 0; EDial 1 true 1]).
  split; [vm_compute; intuition discriminate|]. vm_compute; tauto.
Qed.
Print Assumptions C89_no_czar_refuted.

(** ** C90: when the czar's lease is over another member can take over. *)

(** A member that knows the key's epoch, or none, becomes czar with its next
    attempt. *)
Theorem C90_takeover_partial : forall drift es i P, 0 <= drift ->
  let w := fst (run drift start es) in
  wProcs w i = Some P -> cState P = Unknown -> cWait P = Idle ->
  (forall l, wLeaf w = Some l -> fUntil l + drift < wNow w /\ (vEpoch (cVers P) = 0 \/ vEpoch (cVers P) = fEpoch l)) ->
  acts (fst (run drift w [ECas i; EApply (wNext w) (wNow w); EReply i 0])) i.
Proof.
  intros drift es i P D1 w. destruct (reach drift D1 es) as [used IV]. exact (takeover drift D1 w used _ i P IV).
Qed.
Print Assumptions C90_takeover_partial.

Example C90_ex : let w := fst (R (base ++ [EKill 0; ETick 5501; EDrop 1])) in exists P,
  wProcs w 1%nat = Some P /\ cState P = Unknown /\ cWait P = Idle /\
  (forall l, wLeaf w = Some l -> fUntil l + D < wNow w /\ (vEpoch (cVers P) = 0 \/ vEpoch (cVers P) = fEpoch l)).
Proof.
  eexists. split; [vm_compute; reflexivity|]. split; [reflexivity|]. split; [reflexivity|].
  intros l E. vm_compute in E. injection E as <-. split; [vm_compute; reflexivity|]. right. reflexivity.
Qed.

(* The history of C90_missed_epoch_refuted, and the key as it stays from then on. *)
Definition missed :=
  base ++ [EKill 0; ETick 5501; EDrop 1; ECas 1; EApply 5 5502; EReply 1 0; EKill 1; ETick 6000].
Definition lastLeaf := Leaf 11 1 10502 2 (ML (Some (Det 11 1 1)) []).

Lemma missed_steady : steady D start missed.
Proof. vm_compute. intuition discriminate. Qed.

Lemma missed_alive : exists P, wProcs (fst (run D start missed)) 2%nat = Some P.
Proof. eexists. vm_compute. reflexivity. Qed.

Lemma missed_dead : Dead D lastLeaf 6 (fst (run D start missed)).
Proof.
  let vP := eval vm_compute in (wProcs (fst (run D start missed)) 2%nat) in
    let vN := eval vm_compute in (wNow (fst (run D start missed))) in
    let vT := eval vm_compute in (wTkts (fst (run D start missed))) in
    let vR := eval vm_compute in (wRes (fst (run D start missed))) in
    let vG := eval vm_compute in (wPongs (fst (run D start missed))) in
    assert (A : forall w, wLeaf w = Some lastLeaf -> wNow w = vN -> wNext w = 6%nat ->
      (forall i, wProcs w (S (S (S i))) = None) -> wProcs w 0%nat = None -> wProcs w 1%nat = None -> wProcs w 2%nat = vP ->
      wTkts w = vT -> wRes w = vR -> wPongs w = vG -> Dead D lastLeaf 6 w).
    { clear. intros w EL EN EX E3 E0 E1 E2 ET ER EG. constructor.
      - exact EL.
      - rewrite EN. vm_compute. reflexivity.
      - rewrite EX. apply le_n.
      - intros i P E. destruct i as [|[|[|i]]]; [congruence|congruence| |rewrite E3 in E; discriminate].
        rewrite E2 in E. injection E as <-. vm_compute. intuition discriminate.
      - intros n x K. rewrite ET in K. destruct K.
      - intros n x K L. rewrite ER in K. exfalso. cbn in K. repeat (destruct K as [K|K]; [injection K as <- _; lia|]). destruct K.
      - intros n x K L. rewrite EG in K. exfalso. cbn in K. repeat (destruct K as [K|K]; [injection K as <- _; lia|]). destruct K. }
    apply A; try (vm_compute; reflexivity).
Qed.

Lemma dead_after w es' : Dead D lastLeaf 6 w -> (forall i nm a, ~ In (EStart i nm a) es') ->
  let r := run D w es' in
  wLeaf (fst r) = wLeaf w /\ (forall i, ~ acts (fst r) i) /\
  forall t x, In (t, x) (snd r) -> (exists i, x = OPing i) \/ (exists i, x = OPanic i).
Proof.
  intros DW NS. cbv zeta. destruct (run_dead D lastLeaf 6 es' w DW NS) as [DW' MU]. split; [|split].
  - rewrite (d_leaf _ _ _ _ DW'), (d_leaf _ _ _ _ DW). reflexivity.
  - intros i (P & E & A & _). destruct (d_proc _ _ _ _ DW' _ _ E) as (B & _). contradiction.
  - intros t x K. rewrite Forall_forall in MU. specialize (MU _ K). cbn in MU. destruct x; cbn in MU; try contradiction; eauto.
Qed.

(** False for a member that missed an epoch: czar 0 dies, 1 takes over and dies
    before 2 has heard of it. From then on, whatever happens short of starting
    new processes, 2 stays alive if it is not killed, but nobody becomes czar
    and the key never changes: each CAS of 2 names epoch 1 and is refused, and
    the refusal is thrown away because the lease it names is over. *)
Theorem C90_missed_epoch_refuted : exists es, steady D start es /\
  (exists P, wProcs (fst (run D start es)) 2%nat = Some P) /\
  forall es', (forall i nm a, ~ In (EStart i nm a) es') ->
    let r := run D (fst (run D start es)) es' in
    wLeaf (fst r) = wLeaf (fst (run D start es)) /\ (forall i, ~ acts (fst r) i) /\
    forall t x, In (t, x) (snd r) -> (exists i, x = OPing i) \/ (exists i, x = OPanic i).
Proof.
  exists missed. split; [exact missed_steady|]. split; [exact missed_alive|].
  intros es' NS. exact (dead_after _ es' missed_dead NS).
Qed.
Print Assumptions C90_missed_epoch_refuted.

(** ** C91: a member keeps sending heartbeats. *)

(** After the answer to a ping a member is gone (it panicked), or starts over,
    or will send the next heartbeat; unless the answer's czar lease has run out
    on arrival, or its version is behind the member's. *)
Theorem C91_next_partial : forall drift es i P n b r d, 0 <= drift ->
  let w := fst (run drift start es) in
  wProcs w i = Some P -> cWait P = WPing n b -> pick n (wPongs w) = Some r ->
  let w' := fst (step drift w (EPong i d)) in
  wProcs w' i = None \/
  (exists P', wProcs w' i = Some P' /\ cState P' = Unknown /\ cWait P' = Idle /\ cConn P' = None) \/
  In (OPing i) (snd (step drift w' (EBeat i))) \/
  (exists v l, r = Some (v, l) /\ (vUntil v < wNow w' \/ ~ vle (cVers P) v)).
Proof.
  intros drift es i P n b r d D1 w. apply next_beat. apply run_link. discriminate.
Qed.
Print Assumptions C91_next_partial.

Example C91_ex : let w := fst (R (firstn 17 base)) in exists P r,
  wProcs w 2%nat = Some P /\ cWait P = WPing 4 true /\ pick 4%nat (wPongs w) = Some r /\
  In (OPing 2) (snd (step D (fst (step D w (EPong 2 0))) (EBeat 2))).
Proof. eexists. eexists. split; [vm_compute; reflexivity|]. split; [reflexivity|]. split; [vm_compute; reflexivity|]. vm_compute; auto. Qed.

(* The history of C91_stuck_refuted. *)
Definition late :=
  becomes 0 10 0 1 ++ [EStart 1 11 1; ECas 1; EApply 1 1; EReply 1 0; EDial 1 true 1; EPing 2 0; ETick 5001; EPong 1 0].

Lemma late_steady : steady D start late.
Proof. vm_compute. intuition discriminate. Qed.

Lemma late_not : exists P, wProcs (fst (run D start late)) 1%nat = Some P /\ cState P = Not.
Proof. eexists. split; [vm_compute; reflexivity|]. reflexivity. Qed.

Lemma late_quiet : quiet (fst (run D start late)) 1.
Proof.
  split; [vm_compute; auto|]. eexists. split; [vm_compute; reflexivity|]. repeat split; discriminate.
Qed.

Lemma quiet_after w es' : quiet w 1 -> ~ In (EKill 1) es' ->
  (exists P', wProcs (fst (run D w es')) 1%nat = Some P' /\ cState P' = Not /\ cWait P' = Idle) /\
  forall t, ~ In (t, OPing 1) (snd (run D w es')).
Proof.
  intros Q N. destruct (run_quiet D es' _ _ Q N) as ((_ & P & A & B & C & _) & O). split; [|exact O]. exists P. auto.
Qed.

(** Otherwise false for good: the first answer comes after the end of the
    czar's lease. The member is alive and connected, but whatever happens, it
    never sends a ping again, never contends, and does not notice that the
    connection closes. *)
Theorem C91_stuck_refuted : exists es i P, steady D start es /\ wProcs (fst (run D start es)) i = Some P /\ cState P = Not /\
  forall es', ~ In (EKill i) es' ->
    (exists P', wProcs (fst (run D (fst (run D start es)) es')) i = Some P' /\ cState P' = Not /\ cWait P' = Idle) /\
    forall t, ~ In (t, OPing i) (snd (run D (fst (run D start es)) es')).
Proof.
  exists late, 1%nat. destruct late_not as (P & E & S). exists P. split; [exact late_steady|]. split; [exact E|]. split; [exact S|].
  intros es' N. exact (quiet_after _ es' late_quiet N).
Qed.
Print Assumptions C91_stuck_refuted.

(** ** C92: a user hears of the view its member works with. *)

(** Within an epoch of which the user has heard anything. *)
Theorem C92_told_partial : forall drift es i P t v l, 0 <= drift ->
  wProcs (fst (run drift start es)) i = Some P ->
  In (t, OUp i v l) (snd (run drift start es)) -> vEpoch v = vEpoch (cVers P) ->
  exists t' v' l', In (t', OUp i v' l') (snd (run drift start es)) /\ sameVersion v' (cVers P).
Proof. intros drift es i P t v l D1 E. exact (tp_told _ _ _ (reach_told drift D1 es i P E) t v l). Qed.
Print Assumptions C92_told_partial.

Example C92_ex : exists P v l, wProcs (fst (R base)) 2%nat = Some P /\ In (1, OUp 2 v l) (snd (R base)) /\ vEpoch v = vEpoch (cVers P).
Proof.
  eexists. exists (Vers 1 2 5001), (ML (Some c0) [m1; m2]). split; [vm_compute; reflexivity|]. split; [|reflexivity].
  vm_compute. tauto.
Qed.

(* The history of C92_new_epoch_refuted. *)
Definition unheard :=
  base ++ [EBeat 1; EPing 5 0; EPong 1 0; ERenew 0; EApply 6 1; EReply 0 0; EKill 0; ETick 5501;
     EDrop 1; ECas 1; EApply 7 5502; EReply 1 0; EDrop 2; ECas 2; EApply 8 5502; EReply 2 0; EDial 2 true 2; EPing 9 0; EPong 2 0].

Lemma unheard_steady : steady D start unheard.
Proof. vm_compute. intuition discriminate. Qed.

Lemma unheard_proc : exists P, wProcs (fst (run D start unheard)) 2%nat = Some P /\
  cState P = Not /\ cBeat P = true /\ vEpoch (cVers P) = 2.
Proof. eexists. split; [vm_compute; reflexivity|]. repeat split; reflexivity. Qed.

Definition unheardObs := Eval vm_compute in snd (run D start unheard).

Lemma unheard_obs : snd (run D start unheard) = unheardObs.
Proof. vm_compute. reflexivity. Qed.

Lemma unheard_ans : exists t q v l, In (t, OAns q 2 v l) (snd (run D start unheard)) /\ vEpoch v = 2.
Proof.
  exists 5502, 1%nat, (Vers 2 0 10502), (ML (Some (Det 11 1 1)) [Plus (Det 12 2 2) 11502]). split; [|reflexivity].
  rewrite unheard_obs. unfold unheardObs. repeat (try (left; reflexivity); right).
Qed.

Lemma ups_ok i (os : list (Z * obs)) :
  forallb (fun x => match snd x with OUp j v _ => negb (Nat.eqb i j) || (vEpoch v =? 1) | _ => true end) os = true ->
  forall t v l, In (t, OUp i v l) os -> vEpoch v = 1.
Proof.
  intros F t v l K. rewrite forallb_forall in F. specialize (F _ K). cbn [snd] in F.
  rewrite Nat.eqb_refl in F. apply Z.eqb_eq. exact F.
Qed.

Lemma unheard_ups : forall t v l, In (t, OUp 2 v l) (snd (run D start unheard)) -> vEpoch v = 1.
Proof. apply ups_ok. vm_compute. reflexivity. Qed.

(** Not of a new epoch: member 2 reads the new czar's list from the key, which
    makes no upcall, and the answer to its first ping is the same list, which
    makes none either. It works with epoch 2 and its new czar; all its user
    ever heard of is epoch 1. *)
Theorem C92_new_epoch_refuted : exists es i P, steady D start es /\ wProcs (fst (run D start es)) i = Some P /\
  cState P = Not /\ cBeat P = true /\ vEpoch (cVers P) = 2 /\
  (exists t q v l, In (t, OAns q i v l) (snd (run D start es)) /\ vEpoch v = 2) /\
  forall t v l, In (t, OUp i v l) (snd (run D start es)) -> vEpoch v = 1.
Proof.
  exists unheard, 2%nat. destruct unheard_proc as (P & E & A & B & C). exists P.
  split; [exact unheard_steady|]. split; [exact E|]. split; [exact A|]. split; [exact B|]. split; [exact C|]. split.
  - exact unheard_ans.
  - exact unheard_ups.
Qed.
Print Assumptions C92_new_epoch_refuted.
