(** * Sessions: the invariant of every history *)

From Coq Require Import ZArith List Bool Lia Sorting.Permutation.
From Verif Require Import Sess_Model Sess_Spec Sess_Proofs.
Import ListNotations.
Local Open Scope Z_scope.

Section SessInv.
Context {St Op Rep : Type}.
Variable wr : Op -> St -> St * Rep.
Variable rd : Op -> St -> Rep.
Variable lf : Op -> St -> option Rep.
Variable x0 : St.

Notation tkt := (@tkt Op).
Notation entry := (@entry Op).
Notation node := (@node St Rep).
Notation ste := (@ste Rep).
Notation event := (@event Op).
Notation reach := (reach wr rd lf x0).
Notation run := (run wr x0).
Notation step := (step wr rd lf).

Lemma applied_app (H K : list event) : applied (H ++ K) = applied H ++ applied K.
Proof. unfold applied. apply flat_map_app. Qed.

Lemma execOp_spec (t : tkt) x : execOp wr rd t x = (after wr t x, result wr rd t x).
Proof.
  unfold execOp, after, result. destruct (tKind t); try reflexivity;
    destruct (wr (tOp t) x); reflexivity.
Qed.

Lemma run_app A e : run (A ++ [e]) = after wr (enT e) (run A).
Proof. unfold Sess_Spec.run. rewrite fold_left_app. reflexivity. Qed.

(** ** What is known of a session *)
Definition given (H : list event) (sid ser : Z) (d : @done Rep) : Prop :=
  (exists A1 e A2, applied H = A1 ++ e :: A2 /\ tSid (enT e) = sid /\ tSer (enT e) = ser /\
     d = mkDone (result wr rd (enT e) (run A1)) (S (length A1))) \/
  (exists H1 now u H2, H = H1 ++ ELocal now u :: H2 /\ tSid u = sid /\ tSer u = ser /\
     localRep rd lf u (run (applied H1)) <> None /\
     d = mkDone (localRep rd lf u (run (applied H1))) (length (applied H1))).

Definition expect (H : list event) (sid ser : Z) (d : @done Rep) : Prop :=
  exists H1 lnow b e H2, H = H1 ++ EApply lnow b e :: H2 /\
    tSid (enT e) = sid /\ tSer (enT e) = ser /\ isEnd (tKind (enT e)) = false /\
    tMin (enT e) <= ser /\
    d = mkDone (result wr rd (enT e) (run (applied H1))) (S (length (applied H1))) /\
    Forall (leaves sid ser) H2.

Definition made (H : list event) (sid : Z) : Prop :=
  exists e r, In e (applied H) /\ tKind (enT e) = KNew r /\ rqSid r = sid.

Record good (H : list event) (sid : Z) (s : ste) : Prop := mkGood {
  g_made : made H sid;
  g_max : forall e, In e (applied H) -> tSid (enT e) = sid ->
            isEnd (tKind (enT e)) = false -> tSer (enT e) <= eMax s;
  g_sorted : sorted (eCache s);
  g_sound : forall ser d, aget ser (eCache s) = Some d -> given H sid ser d;
  g_compl : forall ser d, expect H sid ser d -> aget ser (eCache s) = Some d }.

Lemma good_endx H : no_endx (good H).
Proof. intros sid s x [? ? ? ? ?]. constructor; assumption. Qed.

Lemma good_repl H sid s x : good H sid s -> good H sid (setRepl x s).
Proof. intros [? ? ? ? ?]. constructor; assumption. Qed.

Lemma good_high H sid s x : good H sid s -> good H sid (setHigh x s).
Proof. intros [? ? ? ? ?]. constructor; assumption. Qed.

Lemma given_mono H ev sid ser d : given H sid ser d -> given (H ++ [ev]) sid ser d.
Proof.
  intros [(A1 & e & A2 & HA & HR)|(H1 & now & u & H2 & HH & HR)].
  - left. exists A1, e, (A2 ++ applied [ev]). rewrite applied_app, HA, <- app_assoc.
    split; [reflexivity|assumption].
  - right. exists H1, now, u, (H2 ++ [ev]). rewrite HH, <- app_assoc.
    split; [reflexivity|assumption].
Qed.

Lemma made_mono H ev sid : made H sid -> made (H ++ [ev]) sid.
Proof.
  intros (e & r & HI & HR). exists e, r. split; [|assumption].
  rewrite applied_app. apply in_or_app. auto.
Qed.

Lemma snoc_split {A} (l1 l2 : list A) x l y :
  l ++ [y] = l1 ++ x :: l2 ->
  (l2 = [] /\ l1 = l /\ x = y) \/ (exists l2', l2 = l2' ++ [y] /\ l = l1 ++ x :: l2').
Proof.
  destruct l2 as [|z l2 _] using rev_ind.
  - intros HE. left. apply app_inj_tail in HE. destruct HE as [-> ->]. auto.
  - intros HE. right. exists l2.
    change (l1 ++ x :: l2 ++ [z]) with (l1 ++ (x :: l2) ++ [z]) in HE.
    rewrite app_assoc in HE. apply app_inj_tail in HE. destruct HE as [-> ->]. auto.
Qed.

Lemma expect_inv H ev sid ser d :
  expect (H ++ [ev]) sid ser d ->
  (expect H sid ser d /\ leaves sid ser ev) \/
  (exists lnow b e, ev = EApply lnow b e /\ tSid (enT e) = sid /\ tSer (enT e) = ser /\
     isEnd (tKind (enT e)) = false /\ tMin (enT e) <= ser /\
     d = mkDone (result wr rd (enT e) (run (applied H))) (S (length (applied H)))).
Proof.
  intros (H1 & lnow & b & e & H2 & HE & HS & HR & HK & HM & HD & HF).
  destruct (snoc_split _ _ _ _ _ HE) as [(-> & -> & <-)|(H2' & -> & ->)].
  - right. exists lnow, b, e. auto 10.
  - left. apply Forall_app in HF. destruct HF as [HF1 HF2].
    apply Forall_inv in HF2. split; [|assumption].
    exists H1, lnow, b, e, H2'. auto 10.
Qed.

Definition isApply (ev : event) : bool := match ev with EApply _ _ _ => true | _ => false end.

Lemma applied_other H ev : isApply ev = false -> applied (H ++ [ev]) = applied H.
Proof. rewrite applied_app. destruct ev; try discriminate; intros _; apply app_nil_r. Qed.

(** an event that applies nothing and leaves the entry alone. *)
Lemma good_mono H ev sid s : isApply ev = false -> good H sid s -> good (H ++ [ev]) sid s.
Proof.
  intros HN [G1 G2 G3 G4 G5]. constructor.
  - apply made_mono, G1.
  - rewrite applied_other by assumption. exact G2.
  - exact G3.
  - intros ser d HA. apply given_mono. auto.
  - intros ser d HE. apply expect_inv in HE.
    destruct HE as [[HE _]|(lnow & b & e & -> & _)]; [auto|discriminate].
Qed.

Lemma cleanup_good H ev t sid s :
  (forall now, ev = EAsk now t \/ ev = ELocal now t \/ True) ->
  isApply ev = false ->
  (forall ser, leaves sid ser ev -> tMin t <= ser) ->
  good H sid s -> good (H ++ [ev]) sid (cleanupAcked (tMin t) s).
Proof.
  intros _ HN HL HG. pose proof (good_mono _ ev _ _ HN HG) as HG'.
  destruct HG as [G1 G2 G3 G4 G5], HG' as [G1' G2' G3' G4' G5'].
  destruct (cleanup_other (tMin t) s) as (E1 & E2 & _).
  constructor.
  - exact G1'.
  - rewrite E2. exact G2'.
  - apply cleanup_sorted, G3.
  - intros ser d HA. apply G4'. destruct (cleanup_get (tMin t) s ser G3) as [E|E]; congruence.
  - intros ser d HE. destruct (expect_inv _ _ _ _ _ HE) as [[HE1 HL1]|(lnow & b & e & -> & _)];
      [|discriminate].
    rewrite cleanup_keep; [|assumption|apply HL, HL1]. apply G5, HE1.
Qed.

(** applying an entry that is not this session's. *)
Lemma good_other H lnow b e sid s :
  (sid <> tSid (enT e) \/ isEnd (tKind (enT e)) = true) ->
  good H sid s -> good (H ++ [EApply lnow b e]) sid s.
Proof.
  intros HN [G1 G2 G3 G4 G5]. constructor.
  - apply made_mono, G1.
  - intros f HI HS HK. rewrite applied_app in HI. apply in_app_or in HI.
    destruct HI as [HI|[<- | []]]; [auto|].
    destruct HN as [HN|HN]; congruence.
  - exact G3.
  - intros ser d HA. apply given_mono. auto.
  - intros ser d HE. apply expect_inv in HE.
    destruct HE as [[HE _]|(lnow' & b' & e' & [= <- <- <-] & HS & _ & HK & _)]; [auto|].
    destruct HN as [HN|HN]; congruence.
Qed.

(** a session just created. *)
Lemma good_new H lnow b e r :
  fresh_ids (applied (H ++ [EApply lnow b e])) -> tKind (enT e) = KNew r ->
  good (H ++ [EApply lnow b e]) (rqSid r) (newSte r).
Proof.
  intros HF HK. rewrite applied_app in HF. cbn in HF.
  destruct (HF (applied H) e [] r eq_refl HK) as (HN0 & HN1 & HN2).
  assert (HNo : forall f, In f (applied (H ++ [EApply lnow b e])) -> tSid (enT f) <> rqSid r).
  { intros f HI HS. rewrite applied_app in HI. apply in_app_or in HI.
    destruct HI as [HI|[<- | []]]; [|auto]. apply (HN2 f HI). left. assumption. }
  constructor.
  - exists e, r. split; [|auto]. rewrite applied_app. apply in_or_app. right. left. reflexivity.
  - intros f HI HS. exfalso. apply (HNo f HI HS).
  - constructor.
  - discriminate.
  - intros ser d (H1 & l1 & b1 & f & H2 & HE & HS & _). exfalso. apply (HNo f); [|assumption].
    rewrite HE, applied_app. apply in_or_app. right. left. reflexivity.
Qed.

(** applying an entry of this session. *)
Lemma good_keep H lnow b e s :
  isEnd (tKind (enT e)) = false ->
  good H (tSid (enT e)) s ->
  good (H ++ [EApply lnow b e]) (tSid (enT e))
    (keepTkt (enT e)
       (mkDone (result wr rd (enT e) (run (applied H))) (S (length (applied H)))) s).
Proof.
  intros HK [G1 G2 G3 G4 G5].
  set (t := enT e) in *. set (d0 := mkDone _ _).
  set (H' := H ++ [EApply lnow b e]).
  set (s1 := setCache (cset (tSer t) d0 (eCache s)) s).
  assert (HS1 : sorted (eCache s1)) by (apply cset_sorted; assumption).
  assert (HG1 : forall k, aget k (eCache s1) = if k =? tSer t then Some d0 else aget k (eCache s))
    by (intros k; apply aget_cset; assumption).
  assert (HMax : forall f, In f (applied H') -> tSid (enT f) = tSid t ->
                 isEnd (tKind (enT f)) = false -> tSer (enT f) <= eMax s \/ f = e).
  { intros f HI HS HE. unfold H' in HI. rewrite applied_app in HI. apply in_app_or in HI.
    destruct HI as [HI|[<- | []]]; auto. }
  assert (HSound : forall ser d, aget ser (eCache s1) = Some d -> given H' (tSid t) ser d).
  { intros ser d HA. rewrite HG1 in HA. destruct (ser =? tSer t) eqn:E.
    - injection HA as <-. apply Z.eqb_eq in E. left. exists (applied H), e, [].
      unfold H'. rewrite applied_app. auto.
    - apply given_mono. auto. }
  assert (HCompl : forall ser d, expect H' (tSid t) ser d ->
                   aget ser (eCache s1) = Some d /\ tMin t <= ser).
  { intros ser d HE. apply expect_inv in HE.
    destruct HE as [[HE HL]|(l' & b' & e' & [= <- <- <-] & _ & HR & _ & HM & ->)].
    - destruct (HL eq_refl) as [HL1 HL2]. rewrite HG1. fold t in HL1, HL2.
      destruct (ser =? tSer t) eqn:E; [apply Z.eqb_eq in E; congruence|]. auto.
    - rewrite HG1. fold t in HR, HM. subst ser. rewrite Z.eqb_refl. auto. }
  unfold keepTkt. fold s1. change (eMax s1) with (eMax s).
  destruct (eMax s <? tSer t) eqn:E.
  - destruct (cleanup_other (tMin t) (setMax (tSer t) s1)) as (_ & E2 & _).
    constructor.
    + apply made_mono, G1.
    + rewrite E2. cbn [setMax eMax]. intros f HI HS HE.
      destruct (HMax f HI HS HE) as [? | ->]; [lia|]. fold t. lia.
    + apply cleanup_sorted. exact HS1.
    + intros ser d HA. apply HSound.
      destruct (cleanup_get (tMin t) (setMax (tSer t) s1) ser HS1) as [E3|E3]; [congruence|].
      rewrite <- HA, E3. reflexivity.
    + intros ser d HE. destruct (HCompl _ _ HE) as [HA HM].
      rewrite cleanup_keep; [exact HA|exact HS1|exact HM].
  - constructor.
    + apply made_mono, G1.
    + change (eMax s1) with (eMax s). intros f HI HS HE.
      destruct (HMax f HI HS HE) as [? | ->]; [assumption|]. fold t. lia.
    + exact HS1.
    + exact HSound.
    + intros ser d HE. apply HCompl, HE.
Qed.

(** ** The invariant *)
Record inv (H : list event) (n : node) : Prop := mkInv {
  i_st : nSt n = run (applied H);
  i_last : nLast n = length (applied H);
  i_ok : fresh_ids (applied H) -> ok (good H) n }.

Lemma fresh_prefix (A : list entry) B : fresh_ids (A ++ B) -> fresh_ids A.
Proof.
  intros HF A1 e A2 r -> HK. apply (HF A1 e (A2 ++ B) r); [|assumption].
  rewrite <- app_assoc. reflexivity.
Qed.

Lemma made_nonzero H sid : fresh_ids (applied H) -> made H sid -> sid <> 0.
Proof.
  intros HF (e & r & HI & HK & <-). apply in_split in HI. destruct HI as (A1 & A2 & HA).
  apply (HF _ _ _ _ HA HK).
Qed.

Lemma execSess_same lnow b (t : tkt) (n : node) :
  nSt (execSess lnow b t n) = nSt n /\ nLast (execSess lnow b t n) = nLast n.
Proof.
  unfold execSess. destruct (tKind t) as [| | | |r|sid]; auto.
  - destruct (new_same r n) as [A B]. destruct b; [|auto].
    destruct (gc_same lnow (applyNewSess r n)) as (_ & C & D). rewrite C, D. auto.
  - destruct (end_same sid n) as [A B]. destruct b; [|auto].
    destruct (gc_same lnow (applyEndSess sid n)) as (_ & C & D). rewrite C, D. auto.
Qed.

Lemma apply_same lnow b e (n : node) :
  nSt (fst (applyEntry wr rd lnow b e n)) = after wr (enT e) (nSt n) /\
  nLast (fst (applyEntry wr rd lnow b e n)) = S (nLast n).
Proof.
  unfold applyEntry. rewrite execOp_spec.
  set (n0 := setSt _ _). destruct (execSess_same lnow b (enT e) n0) as [A B].
  set (n1 := execSess lnow b (enT e) n0) in *.
  change (nSt n0) with (after wr (enT e) (nSt n)) in A.
  change (nLast n0) with (S (nLast n)) in B.
  destruct (tSid (enT e) =? 0).
  { cbn [fst]. destruct (gc_same lnow n1) as (_ & C & D). rewrite C, D. auto. }
  destruct (lookup (tSid (enT e)) n1) as [[o s]|]; [|auto].
  destruct (isEnd (tKind (enT e))).
  { cbn [fst]. destruct (gc_same lnow n1) as (_ & C & D). rewrite C, D. auto. }
  cbn [fst].
  match goal with |- nSt (gc lnow ?m) = _ /\ _ => destruct (gc_same lnow m) as (_ & C & D) end.
  rewrite C, D. destruct (isNew (tKind (enT e))); auto.
Qed.

Lemma apply_ok H n lnow b e :
  inv H n -> fresh_ids (applied (H ++ [EApply lnow b e])) ->
  ok (good (H ++ [EApply lnow b e])) (fst (applyEntry wr rd lnow b e n)).
Proof.
  intros [HSt HLast HOk] HF.
  assert (HF0 : fresh_ids (applied H)).
  { rewrite applied_app in HF. apply fresh_prefix in HF. assumption. }
  specialize (HOk HF0).
  set (H' := H ++ [EApply lnow b e]) in *. set (t := enT e).
  unfold applyEntry. rewrite execOp_spec, HSt, HLast. fold t.
  set (n0 := setSt _ _).
  assert (HOk0 : ok (good H) n0) by exact HOk.
  (* after the session part of the operation itself *)
  set (Q := fun sid s => good H sid s \/
              exists r, tKind t = KNew r /\ sid = rqSid r /\ s = newSte r).
  assert (HQ : ok Q (execSess lnow b t n0)).
  { unfold execSess.
    assert (HQ0 : ok Q n0) by (eapply ok_weaken; [exact HOk0|]; left; assumption).
    destruct (tKind t) as [| | | |r|sid] eqn:EK; try exact HQ0.
    - assert (HQ1 : ok Q (applyNewSess r n0)).
      { apply ok_new; [exact HQ0|]. intros _. right. exists r. auto. }
      destruct b; [apply ok_gc|]; exact HQ1.
    - assert (HQ1 : ok Q (applyEndSess sid n0)) by (apply ok_end; exact HQ0).
      destruct b; [apply ok_gc|]; exact HQ1. }
  set (n1 := execSess lnow b t n0) in *.
  assert (HQ' : forall sid s, (sid <> tSid t \/ isEnd (tKind t) = true) -> Q sid s -> good H' sid s).
  { intros sid s HN [HG|(r & HK & -> & ->)].
    - apply good_other; assumption.
    - apply good_new; assumption. }
  assert (HQ0 : forall sid s, Q sid s -> sid <> 0).
  { intros sid s [HG|(r & HK & -> & ->)].
    - apply (made_nonzero H); [assumption|apply HG].
    - unfold H' in HF. rewrite applied_app in HF. apply (HF (applied H) e [] r eq_refl HK). }
  destruct (tSid t =? 0) eqn:E0.
  { cbn [fst]. apply ok_gc. eapply ok_weaken; [exact HQ|].
    intros sid s HG. apply HQ'; [|assumption]. left. pose proof (HQ0 _ _ HG). lia. }
  destruct (lookup (tSid t) n1) as [[o s0]|] eqn:EL.
  2:{ cbn [fst]. intros sid o HA. destruct (HQ _ _ HA) as (HL & HE & HG).
      split; [assumption|]. split; [assumption|]. apply HQ'; [|assumption]. left.
      intros ->. unfold lookup in EL. rewrite HA in EL. discriminate. }
  destruct (isEnd (tKind t)) eqn:EEnd.
  { cbn [fst]. apply ok_gc. eapply ok_weaken; [exact HQ|]. intros sid s HG.
    apply HQ'; auto. }
  cbn [fst]. apply ok_gc.
  destruct (ok_lookup _ _ _ _ _ HQ EL) as (HA & _).
  set (d := mkDone _ _).
  assert (HK : ok (good H') (onSte o (keepTkt t d) n1)).
  { eapply ok_onSte; [exact HQ|exact HA| |].
    - intros s HE HG. split.
      + unfold keepTkt. destruct (_ <? _); [|exact HE].
        destruct (cleanup_other (tMin t) (setMax (tSer t) (setCache (cset (tSer t) d (eCache s)) s))) as (E & _).
        rewrite E. exact HE.
      + destruct HG as [HG|(r & HKN & HE2 & _)].
        * apply good_keep; assumption.
        * exfalso. unfold H' in HF. rewrite applied_app in HF.
          destruct (HF (applied H) e [] r eq_refl HKN) as (_ & HN & _). apply HN. exact HE2.
    - intros sid s HN HG. apply HQ'; auto. }
  destruct (isNew (tKind t)); [exact HK|].
  eapply ok_onSte with (P := good H') (sid := tSid t).
  - eapply ok_refresh; [apply good_endx|exact HK|exact HA].
  - exact HA.
  - intros s HE HG. split; [exact HE|]. apply good_repl, HG.
  - auto.
Qed.

Lemma ask_same now (t : tkt) (n : node) :
  nSt (snd (doneEarly now t n)) = nSt n /\ nLast (snd (doneEarly now t n)) = nLast n.
Proof.
  unfold doneEarly. destruct (tSid t =? 0); [auto|]. destruct (negb (deduped (tKind t))); [auto|].
  destruct (lookup (tSid t) n) as [[o s]|]; [|auto].
  destruct (_ <? _); [auto|]. destruct (_ <=? _); [auto|].
  destruct (aget (tSer t) (eCache s)); [auto|].
  destruct (tKind t); auto; destruct (_ <=? _); auto.
Qed.

Lemma ask_ok H (n : node) now (t : tkt) :
  ok (good H) n -> ok (good (H ++ [EAsk now t])) (snd (doneEarly now t n)).
Proof.
  intros HOk. set (ev := EAsk now t).
  assert (HM : ok (good (H ++ [ev])) n).
  { eapply ok_weaken; [exact HOk|]. intros. apply good_mono; [reflexivity|assumption]. }
  unfold doneEarly. destruct (tSid t =? 0); [exact HM|].
  destruct (negb (deduped (tKind t))); [exact HM|].
  destruct (lookup (tSid t) n) as [[o s]|] eqn:EL; [|exact HM].
  destruct (ok_lookup _ _ _ _ _ HOk EL) as (HA & -> & _).
  destruct (_ <? _); [exact HM|].
  destruct (_ <=? _); [apply ok_setTree, ok_setTab_del, HM|].
  assert (HC : forall f : ste -> ste,
            (forall s, eSid (f s) = eSid s) -> (forall K sid s, good K sid s -> good K sid (f s)) ->
            ok (good (H ++ [ev])) (onSte o (fun s => cleanupAcked (tMin t) (f s)) n)).
  { intros f HfE Hf. eapply ok_onSte; [exact HOk|exact HA| |].
    - intros s HE HG. split.
      + destruct (cleanup_other (tMin t) (f s)) as (E & _). rewrite E, HfE. exact HE.
      + apply cleanup_good; [auto|reflexivity| |apply Hf, HG].
        intros ser HL. apply HL. reflexivity.
    - intros sid' s _ HG. apply good_mono; [reflexivity|exact HG]. }
  destruct (aget (tSer t) (eCache (hget (nHeap n) o))); [apply (HC (fun s => s)); auto|].
  assert (HHigh : ok (good (H ++ [ev]))
            (onSte o (fun s => cleanupAcked (tMin t)
                                 (if eHigh s <? tSer t then setHigh (tSer t) s else s)) n)).
  { apply (HC (fun s => if eHigh s <? tSer t then setHigh (tSer t) s else s)).
    - intros s. destruct (_ <? _); reflexivity.
    - intros K sid s HG. destruct (_ <? _); [apply good_high|]; exact HG. }
  destruct (tKind t); try exact HHigh;
    (destruct (_ <=? _); [apply (HC (fun s => s)); auto|exact HHigh]).
Qed.

Lemma local_same now (t : tkt) (n : node) :
  nSt (snd (localRead rd lf now t n)) = nSt n /\ nLast (snd (localRead rd lf now t n)) = nLast n.
Proof.
  unfold localRead. destruct (tSid t =? 0).
  { destruct (localRep rd lf t (nSt n)); auto. }
  destruct (lookup (tSid t) n) as [[o s]|]; [|auto].
  destruct (aget _ _); [auto|]. destruct (localRep rd lf t (nSt n)); auto.
Qed.

Lemma local_ok H (n : node) now (t : tkt) :
  inv H n -> ok (good H) n -> ok (good (H ++ [ELocal now t])) (snd (localRead rd lf now t n)).
Proof.
  intros [HSt HLast _] HOk. set (ev := ELocal now t).
  assert (HM : ok (good (H ++ [ev])) n).
  { eapply ok_weaken; [exact HOk|]. intros. apply good_mono; [reflexivity|assumption]. }
  unfold localRead. destruct (tSid t =? 0).
  { destruct (localRep rd lf t (nSt n)); exact HM. }
  destruct (lookup (tSid t) n) as [[o s]|] eqn:EL; [|exact HM].
  destruct (ok_lookup _ _ _ _ _ HOk EL) as (HA & -> & _ & _ & HLen).
  pose proof (ok_refresh (good H) n (tSid t) o now (good_endx H) HOk HA) as HOk1.
  set (n1 := refreshSession now o n) in *.
  assert (HA1 : aget (tSid t) (nTab n1) = Some o) by exact HA.
  assert (HC : ok (good (H ++ [ev])) (onSte o (cleanupAcked (tMin t)) n1)).
  { eapply ok_onSte; [exact HOk1|exact HA1| |].
    - intros s HE HG. split.
      + destruct (cleanup_other (tMin t) s) as (E & _). rewrite E. exact HE.
      + apply cleanup_good; [auto|reflexivity| |exact HG]. intros ser HL. apply HL. reflexivity.
    - intros sid' s _ HG. apply good_mono; [reflexivity|exact HG]. }
  destruct (aget (tSer t) (eCache (hget (nHeap n1) o))) as [d|] eqn:EC; [exact HC|].
  destruct (localRep rd lf t (nSt n)) as [r|] eqn:ER; [|exact HC].
  set (d := mkDone (Some r) (nLast n)).
  assert (HOk2 : ok (fun sid s => good H sid s /\ (sid = tSid t -> aget (tSer t) (eCache s) = None)) n1).
  { intros sid o' HA'. destruct (HOk1 _ _ HA') as (HL & HE & HG). split; [exact HL|].
    split; [exact HE|]. split; [exact HG|]. intros ->.
    rewrite HA1 in HA'. injection HA' as <-. exact EC. }
  eapply ok_onSte; [exact HOk2|exact HA1| |].
  - intros s HE [HG HNone]. specialize (HNone eq_refl). split.
    + match goal with |- eSid (cleanupAcked ?a ?b) = _ => destruct (cleanup_other a b) as (E & _) end.
      rewrite E. cbn [setCache eSid]. destruct (_ <? _); exact HE.
    + set (s' := if eHigh s <? tSer t then setHigh (tSer t) s else s).
      assert (HC' : eCache s' = eCache s) by (unfold s'; destruct (_ <? _); reflexivity).
      assert (HM' : eMax s' = eMax s) by (unfold s'; destruct (_ <? _); reflexivity).
      cbn beta.
      assert (HGs : good H (tSid t) s') by (unfold s'; destruct (_ <? _); [apply good_high|]; exact HG).
      destruct HGs as [G1 G2 G3 G4 G5].
      set (s2 := setCache (cset (tSer t) d (eCache s)) s').
      assert (HS2 : sorted (eCache s2)) by (apply cset_sorted; rewrite <- HC'; exact G3).
      assert (HG2 : forall k, aget k (eCache s2) = if k =? tSer t then Some d else aget k (eCache s')).
      { intros k. rewrite HC'. apply aget_cset. rewrite <- HC'. exact G3. }
      destruct (cleanup_other (tMin t) s2) as (_ & E2 & _).
      constructor.
      * apply made_mono, G1.
      * rewrite E2, applied_other by reflexivity. exact G2.
      * apply cleanup_sorted, HS2.
      * intros ser d' HAg.
        destruct (cleanup_get (tMin t) s2 ser HS2) as [E3|E3]; [congruence|].
        rewrite E3, HG2 in HAg. destruct (ser =? tSer t) eqn:E4.
        -- injection HAg as <-. apply Z.eqb_eq in E4. subst ser. right.
           exists H, now, t, []. rewrite <- HSt, <- HLast, ER.
           split; [reflexivity|]. split; [reflexivity|]. split; [reflexivity|]. split; [discriminate|reflexivity].
        -- apply given_mono. auto.
      * intros ser d' HEx. apply expect_inv in HEx.
        destruct HEx as [[HEx HL]|(l' & b' & e' & HB & _)]; [|discriminate].
        rewrite cleanup_keep; [|exact HS2|apply HL; reflexivity].
        rewrite HG2. destruct (ser =? tSer t) eqn:E4.
        -- apply Z.eqb_eq in E4. subst ser. apply G5 in HEx. rewrite HC' in HEx. congruence.
        -- apply G5, HEx.
  - intros sid' s _ [HG _]. apply good_mono; [reflexivity|exact HG].
Qed.

Lemma install_same (m : node) order (n : node) :
  nSt (install m order n) = nSt m /\ nLast (install m order n) = nLast m.
Proof.
  unfold install, cloneTab.
  match goal with |- context [updateByClient ?a ?b] => destruct (update_same a b) as (_ & B & C & _) end.
  rewrite B, C. auto.
Qed.

Theorem reach_inv H n : reach H n -> inv H n.
Proof.
  induction 1 as [|H n ev HR IH|H n Hm m order HR IH HRm IHm HP].
  - constructor; [reflexivity|reflexivity|]. intros _ sid o HA. discriminate HA.
  - constructor.
    + destruct ev as [lnow b e|now t|now t|]; cbn [Sess_Spec.step].
      * rewrite applied_app. change (applied [EApply lnow b e]) with [e].
        rewrite run_app, <- (i_st _ _ IH). apply apply_same.
      * rewrite applied_other, <- (i_st _ _ IH) by reflexivity. apply ask_same.
      * rewrite applied_other, <- (i_st _ _ IH) by reflexivity. apply local_same.
      * rewrite applied_other, <- (i_st _ _ IH) by reflexivity. reflexivity.
    + destruct ev as [lnow b e|now t|now t|]; cbn [Sess_Spec.step].
      * rewrite applied_app, app_length. cbn [length applied flat_map app].
        rewrite Nat.add_1_r, <- (i_last _ _ IH). apply apply_same.
      * rewrite applied_other, <- (i_last _ _ IH) by reflexivity. apply ask_same.
      * rewrite applied_other, <- (i_last _ _ IH) by reflexivity. apply local_same.
      * rewrite applied_other, <- (i_last _ _ IH) by reflexivity. reflexivity.
    + intros HF. destruct ev as [lnow b e|now t|now t|]; cbn [Sess_Spec.step].
      * apply apply_ok; assumption.
      * apply ask_ok. apply IH. rewrite applied_other in HF by reflexivity. exact HF.
      * apply local_ok; [exact IH|]. apply IH. rewrite applied_other in HF by reflexivity. exact HF.
      * rewrite applied_other in HF by reflexivity. pose proof (i_ok _ _ IH HF) as HOk.
        eapply ok_weaken with (P := good H); [exact HOk|].
        intros. apply good_mono; [reflexivity|assumption].
  - destruct (install_same m order n) as [A B]. constructor.
    + rewrite A. apply IHm.
    + rewrite B. apply IHm.
    + intros HF. apply ok_install; [apply good_endx|]. apply IHm, HF.
Qed.

(** ** Logs *)
Lemma log_fresh D L : log_by wr rd lf x0 D L -> fresh_ids L.
Proof.
  induction 1 as [|A B e H n now HL IH HR HA HD HF HDD].
  - intros A1 e A2 r HE. destruct A1; discriminate HE.
  - intros A1 f A2 r HE HK. destruct (snoc_split _ _ _ _ _ HE) as [(-> & -> & ->)|(A2' & -> & HE')].
    + apply HF, HK.
    + apply (IH _ _ _ _ HE' HK).
Qed.

(** a node that lets a write in has not applied that request. *)
Lemma let_in_not_applied H n now t e :
  reach H n -> fresh_ids (applied H) ->
  fst (doneEarly now t n) = None -> tKind t = KWrite ->
  In e (applied H) -> same_request t (enT e) -> isEnd (tKind (enT e)) = false -> False.
Proof.
  intros HR HF HD HK HI (HS0 & HS & HSer) HE.
  pose proof (i_ok _ _ (reach_inv _ _ HR) HF) as HOk.
  unfold doneEarly in HD. rewrite HK in HD. cbn [deduped negb] in HD.
  destruct (tSid t =? 0) eqn:E0; [lia|].
  destruct (lookup (tSid t) n) as [[o s]|] eqn:EL; [|discriminate].
  destruct (ok_lookup _ _ _ _ _ HOk EL) as (HA & HEq & HSid & HG & _).
  destruct (_ <? _); [discriminate|]. destruct (eEndx s <=? now); [discriminate|].
  destruct (aget (tSer t) (eCache s)); [discriminate|].
  destruct (tSer t <=? eMax s) eqn:EM; [discriminate|].
  pose proof (g_max _ _ _ HG e HI (eq_sym HS) HE). lia.
Qed.

End SessInv.
