(** * Sessions: the properties (C36, C56, C57) *)

From Coq Require Import ZArith List Bool Lia Sorting.Permutation.
From Verif Require Import Sess_Model Sess_Spec Sess_Proofs Sess_Proofs2 Sess_Proofs3.
Import ListNotations.
Local Open Scope Z_scope.

(** ** A small state machine for the examples: a counter.  The operation is the
    amount added, the result is the new value. *)
Definition cwr (a x : Z) : Z * Z := (x + a, x + a).
Definition crd (_ x : Z) : Z := x.
Definition clf (_ _ : Z) : option Z := None.

Definition cReq : newreq := mkReq 77 5 1000 600 1600.
Definition cNew : @entry Z := mkEntry (mkTkt 0 0 0 0 (KNew cReq) 0) 1000.
Definition cAdd (ser : Z) : @entry Z := mkEntry (mkTkt 77 ser 0 0 KWrite 1) 1010.
Definition cUser (ser : Z) : @entry Z := mkEntry (mkTkt 77 ser 0 0 KOther 1) 1010.
Definition cGet (ser known : Z) : @tkt Z := mkTkt 77 ser 0 known KRead 0.
Definition cEnd : @entry Z := mkEntry (mkTkt 0 0 0 0 (KEnd 77) 0) 1005.
Definition cRun (H : list (@event Z)) : @node Z Z :=
  fold_left (fun n ev => step cwr crd clf ev n) H (node0 0).

Lemma reach_fold {St Op Rep} (wr : Op -> St -> St * Rep) rd lf x0 H :
  reach wr rd lf x0 H (fold_left (fun n ev => step wr rd lf ev n) H (node0 x0)).
Proof.
  induction H as [|ev H IH] using rev_ind; [constructor|].
  rewrite fold_left_app. cbn [fold_left]. constructor. exact IH.
Qed.

Definition cH : list (@event Z) :=
  [EApply 1000 true cNew; EAsk 1005 (enT (cAdd 1)); EApply 1010 true (cAdd 1)].

(** ** C36: a request of a session is not applied again *)

(** Partial: for the kinds of ticket that sessions look at (all but user
    defined operations and the changes of shadow members).  A leader that has
    applied a write of a session, or any other ticket under the same serial
    number, answers every later submission at once and neither logs it nor
    changes anything; when the answer carries results they are results the
    request got before. *)
Theorem C36_not_again_partial :
  forall St Op Rep (wr : Op -> St -> St * Rep) rd lf x0 H n e B (t : @tkt Op) now,
    any_log wr rd lf x0 (applied H ++ B) ->
    reach wr rd lf x0 H n ->
    In e (applied H) -> isEnd (tKind (enT e)) = false ->
    same_request t (enT e) -> tKind t = KWrite ->
    exists a n', doneEarly now t n = (Some a, n') /\
      nSt n' = nSt n /\ nLast n' = nLast n /\
      (forall d dup, a = AReply d dup -> given_before wr rd lf x0 H t d).
Proof.
  intros St Op Rep wr rd lf x0 H n e B t now HL HR HI HE HS HK.
  assert (HF : fresh_ids (applied H)) by (eapply fresh_prefix, log_fresh, HL).
  destruct (doneEarly now t n) as [[a|] n'] eqn:ED.
  - exists a, n'. split; [reflexivity|].
    destruct (ask_same now t n) as [E1 E2]. rewrite ED in E1, E2. cbn [snd] in E1, E2.
    split; [exact E1|]. split; [exact E2|].
    intros d dup ->. unfold doneEarly in ED. rewrite HK in ED. cbn [deduped negb] in ED.
    destruct HS as (H0 & HS1 & HS2).
    destruct (tSid t =? 0); [discriminate|].
    destruct (lookup (tSid t) n) as [[o s]|] eqn:EL; [|discriminate].
    destruct (_ <? _); [discriminate|]. destruct (_ <=? now); [discriminate|].
    destruct (aget (tSer t) (eCache s)) as [d'|] eqn:EC.
    + injection ED as -> _ _.
      pose proof (i_ok _ _ _ _ _ _ (reach_inv _ _ _ _ _ _ HR) HF) as HOk.
      destruct (ok_lookup _ _ _ _ _ HOk EL) as (_ & _ & _ & HG & _).
      destruct (g_sound _ _ _ _ _ _ _ HG _ _ EC) as
        [(A1 & f & A2 & HA & HB & HC & HD)|(H1 & now1 & u & H2 & HA & HB & HC & HD)].
      * left. exists A1, f, A2. split; [exact HA|]. split; [|exact HD].
        unfold same_request. auto.
      * right. exists H1, now1, u, H2. split; [exact HA|]. split; [|exact HD].
        unfold same_request. auto.
    + destruct (tSer t <=? eMax s); discriminate.
  - exfalso. eapply (let_in_not_applied wr rd lf x0 H n now t e); try eassumption.
    rewrite ED. reflexivity.
Qed.
Print Assumptions C36_not_again_partial.

Lemma cLog0 (D : list (@entry Z) -> @tkt Z -> Prop) :
  D [] (enT cNew) -> log_by cwr crd clf 0 D ([cNew] ++ []).
Proof.
  intros HD.
  apply (log_app cwr crd clf 0 D [] [] cNew [] (node0 0) 1000).
  - constructor.
  - constructor.
  - reflexivity.
  - reflexivity.
  - intros r [= <-]. split; [discriminate|]. split; [discriminate|]. intros f [].
  - exact HD.
Qed.

Lemma cLog1 : any_log cwr crd clf 0 (applied cH ++ []).
Proof.
  rewrite app_nil_r.
  apply (log_app cwr crd clf 0 _ [cNew] [] (cAdd 1) [EApply 1000 true cNew]
           (cRun [EApply 1000 true cNew]) 1005).
  - apply cLog0. exact I.
  - apply reach_fold.
  - reflexivity.
  - reflexivity.
  - discriminate.
  - exact I.
Qed.

(** the counter, one write of 1 applied; the write is submitted again. *)
Example C36_not_again_ex :
  any_log cwr crd clf 0 (applied cH ++ []) /\ reach cwr crd clf 0 cH (cRun cH) /\
  In (cAdd 1) (applied cH) /\ same_request (enT (cAdd 1)) (enT (cAdd 1)) /\
  fst (doneEarly 1020 (enT (cAdd 1)) (cRun cH)) = Some (AReply (mkDone (Some 1) 2) true) /\
  nSt (cRun cH) = 1.
Proof.
  split; [apply cLog1|]. split; [apply reach_fold|]. split; [right; left; reflexivity|].
  split; [unfold same_request; cbn; lia|]. split; vm_compute; reflexivity.
Qed.

(** Partial, for the same kinds: in every log written while no client submits
    a request a second time with the first still on its way to being applied, a
    write of a session occurs once; so every node applies it at most once,
    whatever leaders came and went. *)
Theorem C36_once_partial :
  forall St Op Rep (wr : Op -> St -> St * Rep) rd lf x0 L i j e f,
    polite_log wr rd lf x0 L ->
    nth_error L i = Some e -> nth_error L j = Some f ->
    tKind (enT e) = KWrite -> tKind (enT f) = KWrite ->
    same_request (enT e) (enT f) -> i = j.
Proof.
  intros St Op Rep wr rd lf x0 L i j e f HL.
  (* the later of the two was let in although the earlier was there *)
  assert (HMain : forall L, polite_log wr rd lf x0 L -> forall i j e f, (i < j)%nat ->
            nth_error L i = Some e -> nth_error L j = Some f ->
            tKind (enT e) = KWrite -> tKind (enT f) = KWrite ->
            same_request (enT f) (enT e) -> False).
  { clear. intros L HL. induction HL as [|A B g H n now HL IH HR HA HD HF HDD];
      intros i j e f Hij Hi Hj Ke Kf HS.
    - destruct i; discriminate Hi.
    - assert (Hjl : (j < length ((A ++ B) ++ [g]))%nat) by (apply nth_error_Some; congruence).
      rewrite app_length in Hjl. cbn [length] in Hjl.
      assert (Hi' : nth_error (A ++ B) i = Some e) by (rewrite nth_error_app1 in Hi; [exact Hi|lia]).
      destruct (Nat.eq_dec j (length (A ++ B))) as [->|HN].
      + rewrite nth_error_app2, Nat.sub_diag in Hj by lia. injection Hj as ->.
        apply nth_error_In in Hi'. apply in_app_or in Hi'. destruct Hi' as [HI|HI].
        * eapply (let_in_not_applied wr rd lf x0 H n now (enT f) e); try eassumption.
          -- rewrite HA. eapply fresh_prefix, log_fresh, HL.
          -- rewrite HA. exact HI.
          -- rewrite Ke. reflexivity.
        * apply (HDD e HI HS).
      + assert (Hj' : nth_error (A ++ B) j = Some f) by (rewrite nth_error_app1 in Hj; [exact Hj|lia]).
        apply (IH i j e f); assumption. }
  intros Hi Hj Ke Kf (H0 & H1 & H2).
  destruct (lt_eq_lt_dec i j) as [[Hlt|Heq]|Hgt]; [|exact Heq|]; exfalso.
  - eapply (HMain L HL i j); try eassumption. unfold same_request. split; [congruence|auto].
  - eapply (HMain L HL j i); try eassumption. unfold same_request. auto.
Qed.
Print Assumptions C36_once_partial.

(** two requests of one session, the second let in while the first is not yet
    applied: a polite log of three entries, each write in it once. *)
Example C36_once_ex :
  polite_log cwr crd clf 0 ([cNew; cAdd 1] ++ [cAdd 2]) /\
  run cwr 0 [cNew; cAdd 1; cAdd 2] = 2.
Proof.
  split; [|reflexivity].
  apply (log_app cwr crd clf 0 _ [cNew] [cAdd 1] (cAdd 2) [EApply 1000 true cNew]
           (cRun [EApply 1000 true cNew]) 1006); try (vm_compute; reflexivity); try discriminate.
  - apply (log_app cwr crd clf 0 _ [cNew] [] (cAdd 1) [EApply 1000 true cNew]
             (cRun [EApply 1000 true cNew]) 1005); try (vm_compute; reflexivity); try discriminate.
    + apply cLog0. intros f [].
    + apply reach_fold.
    + intros f [].
  - apply reach_fold.
  - intros f [<-|[]] (_ & _ & HS). discriminate HS.
Qed.

(** A repeat gets the results the request got when it was applied, from the
    table: as long as the session is live there, the client has not said it is
    past that serial number, and has not used the number for something else. *)
Theorem C36_answered_from_table :
  forall St Op Rep (wr : Op -> St -> St * Rep) rd lf x0 B H1 lnow lead e H2 n (t : @tkt Op) now,
    let H := H1 ++ EApply lnow lead e :: H2 in
    any_log wr rd lf x0 (applied H ++ B) ->
    reach wr rd lf x0 H n ->
    isEnd (tKind (enT e)) = false -> tMin (enT e) <= tSer (enT e) ->
    same_request t (enT e) -> deduped (tKind t) = true ->
    Forall (leaves (tSid t) (tSer t)) H2 ->
    live n (tSid t) now -> tKnown t <= Z.of_nat (nLast n) ->
    exists n',
      doneEarly now t n =
        (Some (AReply (mkDone (result wr rd (enT e) (run wr x0 (applied H1)))
                              (S (length (applied H1)))) true), n') /\
      nSt n' = nSt n /\ nLast n' = nLast n.
Proof.
  intros St Op Rep wr rd lf x0 B H1 lnow lead e H2 n t now H HL HR HE HM HS HK HF HLive HKn.
  assert (HFr : fresh_ids (applied H)) by (eapply fresh_prefix, log_fresh, HL).
  pose proof (i_ok _ _ _ _ _ _ (reach_inv _ _ _ _ _ _ HR) HFr) as HOk.
  destruct (ask_same now t n) as [E1 E2].
  destruct HLive as (o & s & HLk & HNow). destruct HS as (H0 & HS1 & HS2).
  destruct (ok_lookup _ _ _ _ _ HOk HLk) as (_ & _ & _ & HG & _).
  assert (HC : aget (tSer t) (eCache s) = Some (mkDone (result wr rd (enT e) (run wr x0 (applied H1)))
                              (S (length (applied H1))))).
  { apply (g_compl _ _ _ _ _ _ _ HG). exists H1, lnow, lead, e, H2. repeat split; auto.
    rewrite HS2. exact HM. }
  assert (HD : fst (doneEarly now t n) =
          Some (AReply (mkDone (result wr rd (enT e) (run wr x0 (applied H1)))
                              (S (length (applied H1)))) true)).
  { unfold doneEarly. rewrite HK. cbn [negb]. destruct (tSid t =? 0) eqn:EZ; [lia|].
    rewrite HLk, HC. destruct (_ <? tKnown t) eqn:E; [lia|].
    destruct (eEndx s <=? now) eqn:E'; [lia|]. reflexivity. }
  destruct (doneEarly now t n) as [a n'] eqn:ED. cbn [fst snd] in *. subst a.
  exists n'. auto.
Qed.
Print Assumptions C36_answered_from_table.

(** after another write of the session the repeat of the first still gets the
    first answer: 1, as of entry 2; the counter stands at 2. *)
Definition cH2 : list (@event Z) :=
  [EAsk 1012 (enT (cAdd 2)); EApply 1013 true (cAdd 2)].
Example C36_answered_ex :
  let H := [EApply 1000 true cNew] ++ EApply 1010 true (cAdd 1) :: cH2 in
  Forall (leaves 77 1) cH2 /\ live (cRun H) 77 1020 /\
  fst (doneEarly 1020 (enT (cAdd 1)) (cRun H)) = Some (AReply (mkDone (Some 1) 2) true) /\
  nSt (cRun H) = 2.
Proof.
  cbn zeta. split.
  { apply Forall_cons; [|apply Forall_cons; [|apply Forall_nil]]; cbn; lia. }
  split; [|split; vm_compute; reflexivity].
  unfold live. eexists _, _. split; [vm_compute; reflexivity|vm_compute; reflexivity].
Qed.

(** In full the claim is false: a request submitted twice, the second time
    while the first is logged and not yet applied, is logged and applied twice. *)
Theorem C36_in_flight_refuted :
  exists L, any_log cwr crd clf 0 L /\
    nth_error L 1 = Some (cAdd 1) /\ nth_error L 2 = Some (cAdd 1) /\
    same_request (enT (cAdd 1)) (enT (cAdd 1)) /\ run cwr 0 L = 2.
Proof.
  exists ([cNew; cAdd 1] ++ [cAdd 1]).
  split; [|repeat split; cbn; lia].
  apply (log_app cwr crd clf 0 _ [cNew] [cAdd 1] (cAdd 1) [EApply 1000 true cNew]
           (cRun [EApply 1000 true cNew]) 1006); try (vm_compute; reflexivity); try discriminate.
  - exact cLog1.
  - apply reach_fold.
Qed.
Print Assumptions C36_in_flight_refuted.

(** and false for user defined operations even without anything in flight:
    sessions do not look at them. *)
Theorem C36_user_op_refuted :
  exists L, polite_log cwr crd clf 0 L /\
    nth_error L 1 = Some (cUser 1) /\ nth_error L 2 = Some (cUser 1) /\ run cwr 0 L = 2.
Proof.
  exists ([cNew; cUser 1] ++ [cUser 1]).
  split; [|repeat split; cbn; lia].
  apply (log_app cwr crd clf 0 _ [cNew; cUser 1] [] (cUser 1)
           [EApply 1000 true cNew; EApply 1010 true (cUser 1)]
           (cRun [EApply 1000 true cNew; EApply 1010 true (cUser 1)]) 1020);
    try (vm_compute; reflexivity); try discriminate.
  - apply (log_app cwr crd clf 0 _ [cNew] [] (cUser 1) [EApply 1000 true cNew]
             (cRun [EApply 1000 true cNew]) 1005); try (vm_compute; reflexivity); try discriminate.
    + apply cLog0. intros f [].
    + apply reach_fold.
    + intros f [].
  - apply reach_fold.
  - intros f [].
Qed.
Print Assumptions C36_user_op_refuted.

(** A leader can answer "unknown session" to a write that it has just applied:
    the session ended between letting the write in and applying it. *)
Theorem C36_error_but_applied_refuted :
  exists H n,
    any_log cwr crd clf 0 (applied H ++ [cAdd 1]) /\ reach cwr crd clf 0 H n /\
    snd (applyEntry cwr crd 1010 true (cAdd 1) n) = Some AUnknown /\
    nSt n = 0 /\ nSt (fst (applyEntry cwr crd 1010 true (cAdd 1) n)) = 1.
Proof.
  exists [EApply 1000 true cNew; EApply 1005 true cEnd],
    (cRun [EApply 1000 true cNew; EApply 1005 true cEnd]).
  split; [|split; [apply reach_fold|repeat split; vm_compute; reflexivity]].
  apply (log_app cwr crd clf 0 _ [cNew] [cEnd] (cAdd 1) [EApply 1000 true cNew]
           (cRun [EApply 1000 true cNew]) 1004); try (vm_compute; reflexivity); try discriminate.
  - apply (log_app cwr crd clf 0 _ [cNew] [] cEnd [EApply 1000 true cNew]
             (cRun [EApply 1000 true cNew]) 1003); try (vm_compute; reflexivity); try discriminate.
    + apply cLog0. exact I.
    + apply reach_fold.
  - apply reach_fold.
Qed.
Print Assumptions C36_error_but_applied_refuted.

(** ** C56: a session that has seen entry i is answered from entry i or later *)

(** Partial: for tickets that go through the log.  The new answer to a read or
    write of a session is as of an entry after everything the client said it
    had seen. *)
Theorem C56_logged_partial :
  forall St Op Rep (wr : Op -> St -> St * Rep) rd lf x0 L i H n e lnow lead n' d dup,
    any_log wr rd lf x0 L ->
    nth_error L i = Some e -> applied H = firstn i L -> reach wr rd lf x0 H n ->
    tSid (enT e) <> 0 -> deduped (tKind (enT e)) = true ->
    applyEntry wr rd lnow lead e n = (n', Some (AReply d dup)) ->
    tKnown (enT e) < Z.of_nat (dAsOf d) /\ dAsOf d = S i.
Proof.
  intros St Op Rep wr rd lf x0 L i H n e lnow lead n' d dup HL Hi HA HR H0 HK HAp.
  assert (Hlen : length (firstn i L) = i).
  { apply firstn_length_le. apply Nat.lt_le_incl, nth_error_Some. congruence. }
  pose proof (i_last _ _ _ _ _ _ (reach_inv _ _ _ _ _ _ HR)) as HLast. rewrite HA, Hlen in HLast.
  assert (HD : dAsOf d = S i).
  { unfold applyEntry in HAp. destruct (execOp _ _ _ _) as [x' r]. rewrite HLast in HAp.
    destruct (_ =? 0).
    { destruct lead; [|discriminate]. injection HAp as _ <- _. reflexivity. }
    destruct (lookup _ _) as [[o s]|].
    - destruct (isEnd _); destruct lead; try discriminate; injection HAp as _ <- _; reflexivity.
    - destruct lead; discriminate. }
  split; [|exact HD]. rewrite HD.
  assert (HMain : forall L, any_log wr rd lf x0 L -> forall i e, nth_error L i = Some e ->
            tSid (enT e) <> 0 -> deduped (tKind (enT e)) = true -> tKnown (enT e) <= Z.of_nat i).
  { clear. intros L HL. induction HL as [|A B g H n now HL IH HR HA HD HF HDD]; intros i e Hi H0 HK.
    - destruct i; discriminate Hi.
    - assert (Hil : (i < length ((A ++ B) ++ [g]))%nat) by (apply nth_error_Some; congruence).
      rewrite app_length in Hil. cbn [length] in Hil.
      destruct (Nat.eq_dec i (length (A ++ B))) as [->|HN].
      + rewrite nth_error_app2, Nat.sub_diag in Hi by lia. injection Hi as ->.
        pose proof (i_last _ _ _ _ _ _ (reach_inv _ _ _ _ _ _ HR)) as HLast. rewrite HA in HLast.
        unfold doneEarly in HD. rewrite HK in HD. cbn [negb] in HD.
        destruct (tSid (enT e) =? 0) eqn:EZ; [lia|].
        destruct (lookup _ _) as [[o s]|]; [|discriminate].
        destruct (Z.of_nat (nLast n) <? tKnown (enT e)) eqn:EK; [discriminate|].
        rewrite app_length. lia.
      + apply (IH i e); try assumption. rewrite nth_error_app1 in Hi; [exact Hi|lia]. }
  pose proof (HMain L HL i e Hi H0 HK). lia.
Qed.
Print Assumptions C56_logged_partial.

(** the counter: a write of a client that has seen entry 1 is answered as of
    entry 2. *)
Example C56_logged_ex :
  let e := mkEntry (mkTkt 77 1 0 1 KWrite 1) 1010 in
  fst (doneEarly 1005 (enT e) (cRun [EApply 1000 true cNew])) = None /\
  snd (applyEntry cwr crd 1010 true e (cRun [EApply 1000 true cNew]))
    = Some (AReply (mkDone (Some 1) 2) false).
Proof. split; vm_compute; reflexivity. Qed.

(** a ticket from further on is turned away, not answered. *)
Theorem C56_turned_away :
  forall St Op Rep (wr : Op -> St -> St * Rep) rd lf x0 H n (t : @tkt Op) now,
    reach wr rd lf x0 H n -> tSid t <> 0 -> deduped (tKind t) = true ->
    Z.of_nat (length (applied H)) < tKnown t ->
    exists a, doneEarly now t n = (Some a, n) /\ (a = AClock \/ a = AUnknown).
Proof.
  intros St Op Rep wr rd lf x0 H n t now HR H0 HK HKn.
  pose proof (i_last _ _ _ _ _ _ (reach_inv _ _ _ _ _ _ HR)) as HLast.
  unfold doneEarly. rewrite HK. cbn [negb]. destruct (tSid t =? 0) eqn:EZ; [lia|].
  destruct (lookup _ _) as [[o s]|]; [|eauto].
  destruct (_ <? tKnown t) eqn:E; [eauto|]. lia.
Qed.
Print Assumptions C56_turned_away.

Example C56_turned_away_ex :
  doneEarly 1020 (cGet 2 9) (cRun cH) = (Some AClock, cRun cH) /\
  Z.of_nat (length (applied cH)) < 9.
Proof. split; vm_compute; reflexivity. Qed.

(** In full the claim is false: a read served locally by the leader is not
    checked.  The client has seen entry 9, the node has applied 2 entries and
    answers from there. *)
Theorem C56_local_read_refuted :
  exists H n t d n',
    reach cwr crd clf 0 H n /\ any_log cwr crd clf 0 (applied H ++ []) /\
    localRead crd clf 1020 t n = (Some (AReply d false), n') /\
    Z.of_nat (dAsOf d) < tKnown t.
Proof.
  exists cH, (cRun cH), (cGet 2 9), (mkDone (Some 1) 2), (snd (localRead crd clf 1020 (cGet 2 9) (cRun cH))).
  split; [apply reach_fold|]. split; [exact cLog1|].
  split; [vm_compute; reflexivity|vm_compute; reflexivity].
Qed.
Print Assumptions C56_local_read_refuted.

(** ** C57: a client has one session *)

(** Partial: on a node that has neither restarted nor taken a snapshot. *)
Theorem C57_one_session_partial :
  forall St Op Rep (wr : Op -> St -> St * Rep) rd lf x0 (H : list (@event Op)) sid sid' o o' s s',
    ~ In ERestart H ->
    let n := fold_left (fun n ev => step wr rd lf ev n) H (node0 x0) in
    lookup sid n = Some (o, s) -> lookup sid' n = Some (o', s') ->
    eClient s = eClient s' -> sid = sid'.
Proof.
  intros St Op Rep wr rd lf x0 H sid sid' o o' s s' HN n HL HL' HE.
  pose proof (cl_all wr rd lf x0 H HN) as HC. fold n in HC. unfold lookup in *.
  destruct (aget sid (nTab n)) as [p|] eqn:E1; [|discriminate].
  destruct (aget sid' (nTab n)) as [p'|] eqn:E2; [|discriminate].
  injection HL as <- <-. injection HL' as <- <-. eapply cl_unique; eassumption.
Qed.
Print Assumptions C57_one_session_partial.

Definition cNew2 : @entry Z := mkEntry (mkTkt 0 0 0 0 (KNew (mkReq 78 5 1100 600 1700)) 0) 1100.

(** client 5 opens session 78 after 77: only 78 is left. *)
Example C57_one_session_ex :
  let n := cRun [EApply 1000 true cNew; EApply 1100 true cNew2] in
  lookup 77 n = None /\ aget 78 (nTab n) = Some 1%nat.
Proof. split; vm_compute; reflexivity. Qed.

(** after a restart in between both are there. *)
Theorem C57_restart_refuted :
  exists H o s o' s', reach cwr crd clf 0 H (cRun H) /\
    lookup 77 (cRun H) = Some (o, s) /\ lookup 78 (cRun H) = Some (o', s') /\
    eClient s = eClient s'.
Proof.
  exists [EApply 1000 true cNew; ERestart; EApply 1100 true cNew2].
  eexists _, _, _, _. split; [apply reach_fold|].
  split; [vm_compute; reflexivity|]. split; [vm_compute; reflexivity|reflexivity].
Qed.
Print Assumptions C57_restart_refuted.
