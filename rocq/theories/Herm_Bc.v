(* One node, ACKs sent to every node (the setting the source ships with), no
   deadline passing and writes only to a key that is not busy: no handler
   panics, and the key's timestamp never goes back. *)

From Coq Require Import List Arith Bool Lia.
Import ListNotations.
From Verif Require Import Herm_Spec Herm_Model Herm_Order Herm_Tick Herm_Uni.

Section Adopt.
Variable c : cfg.

Lemma ots_unblock s : ots (unblockReads s) = ots s.
Proof.
  unfold unblockReads. destruct (hKey s) as [k|]; auto.
  assert (X : forall l s0, hKey (fold_left
    (fun s1 t => match tOp t with WRITE => s1
       | READ => closeDone t (TOk (kVal k) (kTS k)) (setPend (dropId (tId t) (hPend s1)) s1) end) l s0) = hKey s0).
  { induction l as [|t l IH]; cbn [fold_left]; auto. intros s0. rewrite IH. destruct (tOp t); auto.
    unfold closeDone. destruct (tPseudo t); reflexivity. }
  unfold ots. now rewrite X.
Qed.

Lemma ots_st x s : ots (setSt x s) = ots s.
Proof. unfold setSt, ots. destruct (hKey s) eqn:E; cbn; auto. now rewrite E. Qed.

Lemma ots_record t s s' : recordPending t s = HOk s' -> ots s' = ots s.
Proof.
  unfold recordPending, deleteTicket. destruct (getTicket (tId t) s) as [t0|].
  - destruct (tInPQ t0); cbn; intros [= <-]; auto.
  - intros [= <-]. auto.
Qed.

Lemma ots_ack me f t id s : ots (sendAck c me f t id s) = ots s.
Proof. unfold sendAck. destruct (cBcast c); auto. Qed.

Lemma actionI_ots f t v id s s' : actionI c f t v id s = HOk s' -> ots s' = Some t.
Proof.
  unfold actionI. destruct (hKey s) as [k|]; [|discriminate].
  set (s1 := setKey _ s). assert (E1 : ots s1 = Some t) by reflexivity.
  destruct (cBcast c); [|intros [= <-]; auto].
  destruct (cRD c <=? 2); [intros [= <-]; rewrite ots_unblock, ots_st; auto|].
  destruct (getTicket id s1) as [tk|].
  - destruct (tPseudo tk); cbn; intros [= <-]; auto.
  - destruct (recordPending _ s1) as [s2|] eqn:RP; cbn; [|discriminate]. intros [= <-].
    apply ots_record in RP. change (ots (modTicket id (addAck f) s2)) with (ots s2). congruence.
Qed.

(* an INV that has been handled leaves a timestamp at least as new *)
Lemma recvInv_adopt me f t v id s s' : recvInv c me f t v id s = HOk s' -> ole c (Some t) (ots s').
Proof.
  unfold recvInv. set (s0 := match hKey s with None => _ | Some _ => s end).
  destruct (hKey s0) as [k|] eqn:HK; [|discriminate].
  intros H.
  assert (X : forall r, bind r (fun s3 => if cBcast c && (cRD c <=? 2) then HOk (unblockReads (setSt SValid s3)) else HOk s3) = HOk s' ->
     exists s3, r = HOk s3 /\ ots s' = ots s3).
  { intros [s3|s3]; cbn; [|discriminate]. destruct (cBcast c && (cRD c <=? 2)); intros [= <-]; exists s3; split; auto.
    now rewrite ots_unblock, ots_st. }
  apply X in H. destruct H as (s3 & H & E). rewrite E. clear X E.
  destruct (tsCompare c t (kTS k)) eqn:CMP.
  - destruct (actionI c f t v id s0) as [s1|] eqn:A; cbn in H; [|discriminate]. injection H as <-.
    rewrite ots_ack, (actionI_ots _ _ _ _ _ _ A). now left.
  - injection H as <-. rewrite ots_ack. unfold ots. rewrite HK. right. exact CMP.
  - destruct (kSt k).
    + destruct (actionI c f t v id s0) as [s1|] eqn:A; cbn in H; [|discriminate]. injection H as <-.
      rewrite ots_ack, ots_st, (actionI_ots _ _ _ _ _ _ A). now left.
    + destruct (actionI c f t v id s0) as [s1|] eqn:A; cbn in H; [|discriminate]. injection H as <-.
      rewrite ots_ack, (actionI_ots _ _ _ _ _ _ A). now left.
    + destruct (releaseDiscarded c s0) as [s2|]; cbn in H; [|discriminate].
      destruct (actionI c f t v id s2) as [s1|] eqn:A; cbn in H; [|discriminate]. injection H as <-.
      rewrite ots_ack, ots_st, (actionI_ots _ _ _ _ _ _ A). now left.
    + destruct (releaseDiscarded c s0) as [s2|]; cbn in H; [|discriminate].
      destruct (actionI c f t v id s2) as [s1|] eqn:A; cbn in H; [|discriminate]. injection H as <-.
      rewrite ots_ack, ots_st, (actionI_ots _ _ _ _ _ _ A). now left.
    + destruct (actionI c f t v id s0) as [s1|] eqn:A; cbn in H; [|discriminate]. injection H as <-.
      rewrite ots_ack, (actionI_ots _ _ _ _ _ _ A). now left.
Qed.
End Adopt.

Section B.
Variable c : cfg.
Hypothesis inj : hashInj c.
Hypothesis bc : cBcast c = true.
Hypothesis three : 3 <= cRD c.

Lemma not2 : (cRD c <=? 2) = false.
Proof. apply Nat.leb_gt. lia. Qed.

Section H.
Variable I : nat -> ts -> option nat -> Prop.
Variable n : nat.
Hypothesis Ifun1 : forall id t v t' v', I id t v -> I id t' v' -> t = t' /\ v = v'.
Hypothesis Ifun2 : forall id t v id' v', I id t v -> I id' t v' -> id = id' /\ v = v'.
Hypothesis Ipos : forall id t v, I id t v -> 1 <= tver t.

(* a waiting read, or the record of somebody's write *)
Definition tkOK (t : tkt) : Prop :=
  (tOp t = READ /\ tPseudo t = false /\ forall x v, ~ I (tId t) x v) \/
  (tOp t = WRITE /\ tPseudo t = true /\ tFrom t <> n /\
   exists v, I (tId t) (tTS t) v /\ (tVal t = None \/ tVal t = v)).

(* the write the node is coordinating *)
Definition ownOK (s : nst) (t : tkt) : Prop :=
  tOp t = WRITE /\ tPseudo t = false /\ tFrom t = n /\
  exists k, hKey s = Some k /\ kSt k = SWrite /\ tTS t = kTS k /\ tVal t = kVal k /\ I (tId t) (tTS t) (tVal t).

Definition stOK (s : nst) (k : keym) : Prop :=
  match kSt k with
  | SValid => exists id, I id (kTS k) (kVal k)
  | SInvalid => (kTS k = TS 0 n /\ kVal k = None) \/ exists id, I id (kTS k) (kVal k)
  | SWrite => kLast k = n /\ tcid (kTS k) = n /\ (exists id, I id (kTS k) (kVal k)) /\ exists w, In w (hPend s) /\ ownOK s w
  | SReplay => False
  | SInvalidWR => (exists id, I id (kTS k) (kVal k)) /\
      exists w, In w (hPend s) /\ tOp w = WRITE /\ tTS w = kTS k /\ tVal w = kVal k
  end.

Record NIb (s : nst) : Prop := {
  b_nodup : NoDup (map tId (hPend s));
  b_st : forall k, hKey s = Some k -> stOK s k;
  b_tk : forall t, In t (hPend s) -> tkOK t \/ ownOK s t }.

Definition outB (o : out) : Prop :=
  match o with
  | OBcast (MAck f t tid) => f = n /\ exists v, I tid t v
  | OBcast _ | OSend _ _ | OIssue _ _ _ => False
  | ODone _ _ _ => True
  end.

Record pB (s s' : nst) : Prop := {
  pb_ni : NIb s';
  pb_mono : ole c (ots s) (ots s');
  pb_out : Forall outB (hOut s') }.

Lemma noown s : (forall k, hKey s = Some k -> kSt k <> SWrite) -> NIb s -> forall t, In t (hPend s) -> tkOK t.
Proof.
  intros NW NI t T. destruct (b_tk _ NI t T) as [|(_ & _ & _ & k & A & B & _)]; auto. exfalso. eapply NW; eauto.
Qed.

Lemma tkI t : tkOK t -> tOp t = WRITE -> exists v, I (tId t) (tTS t) v.
Proof. intros [(A & _)|(_ & _ & _ & v & B & _)] O; [congruence|eauto]. Qed.

Lemma wrI s t : NIb s -> In t (hPend s) -> tOp t = WRITE -> exists v, I (tId t) (tTS t) v.
Proof. intros NI T O. destruct (b_tk _ NI t T) as [|(_ & _ & _ & k & _ & _ & _ & _ & B)]; eauto. now apply tkI. Qed.

Lemma idW s t tid x v : NIb s -> In t (hPend s) -> tId t = tid -> I tid x v ->
  tOp t = WRITE /\ tTS t = x.
Proof.
  intros NI T E HI. destruct (b_tk _ NI t T) as [[(A & _ & B)|(A & _ & _ & v' & B & _)]|(A & _ & _ & k & _ & _ & _ & _ & B)].
  - exfalso. apply (B x v). congruence.
  - split; auto. rewrite E in B. apply (Ifun1 _ _ _ _ _ B HI).
  - split; auto. rewrite E in B. apply (Ifun1 _ _ _ _ _ B HI).
Qed.

Lemma tkOK_addAck f t : tkOK t -> tkOK (addAck f t).
Proof. auto. Qed.

Lemma NIb_addAck s tid f : NIb s -> NIb (modTicket tid (addAck f) s).
Proof.
  intros [A B C]. 
  assert (OWN : forall t, ownOK s t -> ownOK (modTicket tid (addAck f) s) (if tId t =? tid then addAck f t else t)).
  { intros t (X1 & X2 & X3 & X4). destruct (tId t =? tid); repeat split; auto. }
  constructor.
  - rewrite modTicket_ids; auto.
  - intros k E. specialize (B k E). unfold stOK in *. destruct (kSt k); auto.
    + destruct B as (B1 & B2 & B3 & w & W1 & W2). repeat split; auto.
      exists (if tId w =? tid then addAck f w else w). split; auto. apply modTicket_in. exists w. auto.
    + destruct B as (B1 & w & W1 & W2). split; auto.
      exists (if tId w =? tid then addAck f w else w). split; [apply modTicket_in; exists w; auto|].
      destruct (tId w =? tid); auto.
  - intros t T. apply modTicket_in in T. destruct T as (u & U & ->). destruct (C u U) as [X|X].
    + left. destruct (tId u =? tid); auto.
    + right. auto.
Qed.

(* tickets only, the key at rest *)
Lemma mk s' k : hKey s' = Some k -> (exists id, I id (kTS k) (kVal k)) ->
  kSt k = SValid \/ kSt k = SInvalid \/ (kSt k = SInvalidWR /\
    exists w, In w (hPend s') /\ tOp w = WRITE /\ tTS w = kTS k /\ tVal w = kVal k) ->
  NoDup (map tId (hPend s')) -> (forall t, In t (hPend s') -> tkOK t) -> NIb s'.
Proof.
  intros HK IK ST ND TK. constructor; auto.
  intros k' E. rewrite HK in E. injection E as <-. unfold stOK. destruct ST as [-> | [-> | (-> & B)]]; auto.
Qed.

Lemma rdones_outB k p : Forall outB (rdones k p).
Proof.
  unfold rdones. induction p as [|t p IH]; cbn; auto. apply Forall_app. split; auto.
  unfold rdone. destruct (tOp t); auto. destruct (tPseudo t); auto. repeat constructor.
Qed.

Lemma unblock_b s k : hKey s = Some k -> NoDup (map tId (hPend s)) ->
  hKey (unblockReads s) = Some k /\ hPend (unblockReads s) = filter isWriteT (hPend s) /\
  (Forall outB (hOut s) -> Forall outB (hOut (unblockReads s))).
Proof.
  intros HK ND. rewrite (unblockReads_eq s k HK ND). cbn. repeat split; auto.
  intros F. apply Forall_app. split; auto. apply rdones_outB.
Qed.

Lemma filt_in p t : In t (filter isWriteT p) <-> In t p /\ tOp t = WRITE.
Proof. rewrite filter_In. unfold isWriteT. destruct (tOp t); intuition congruence. Qed.

(* completing the write the key is at *)
Lemma complete_b s k w tid : NoDup (map tId (hPend s)) -> hKey s = Some k -> kSt k = SValid ->
  In w (hPend s) -> tId w = tid -> tTS w = kTS k -> tVal w = kVal k ->
  (exists id, I id (kTS k) (kVal k)) ->
  (forall t, In t (hPend s) -> tId t <> tid -> tkOK t) -> Forall outB (hOut s) ->
  exists s', completeWrite tid s = HOk s' /\ NIb s' /\ ots s' = ots s /\ Forall outB (hOut s').
Proof.
  intros ND HK ST W WI WT WV IK TK OO. unfold completeWrite. rewrite (getTicket_in tid s w) by auto. rewrite HK.
  unfold deleteTicket. set (s1 := setKey _ s).
  rewrite (getTicket_in tid s1 w) by auto. cbn [bind].
  set (s2 := closeDone _ _ _).
  assert (K2 : hKey s2 = Some (KM (tTS w) (kSt k) (tFrom w) (tVal w))) by (unfold s2, closeDone; destruct (tPseudo w); reflexivity).
  assert (P2 : hPend s2 = dropId tid (hPend s)) by (unfold s2, closeDone; destruct (tPseudo w); reflexivity).
  assert (O2 : Forall outB (hOut s2)).
  { unfold s2, closeDone; destruct (tPseudo w); cbn; auto. apply Forall_app. split; auto. repeat constructor. }
  clearbody s2.
  assert (ND2 : NoDup (map tId (hPend s2))) by (rewrite P2; apply dropId_nodup; auto).
  destruct (unblock_b s2 _ K2 ND2) as (U1 & U2 & U3).
  eexists. split; [reflexivity|]. split; [|split].
  - eapply (mk _ _ U1); cbn; rewrite ?WT, ?WV; auto.
    + rewrite U2. apply map_filter_nodup; auto.
    + rewrite U2, P2. intros t T. apply filter_In in T. destruct T as [T _]. apply dropId_in in T. apply TK; tauto.
  - unfold ots. rewrite U1, HK. cbn. now rewrite WT.
  - auto.
Qed.

(* ---- READ ---- *)
Lemma read_b s id w : NIb s -> hOut s = [] -> ~ In id (map tId (hPend s)) -> (forall x v, ~ I id x v) ->
  exists s', readReq c n id w s = HOk s' /\ pB s s'.
Proof.
  intros NI HO FR NIi. unfold readReq.
  assert (BUF : forall k s0, hKey s0 = Some k -> hPend s0 = hPend s -> hOut s0 = [] -> stOK s0 k ->
     (hKey s = Some k \/ hKey s = None) ->
     exists s', recordPending (newTicket id READ None (kTS k) n false true) s0 = HOk s' /\ pB s s').
  { intros k s0 HK P0 O0 ST CS. rewrite recordPending_fresh by (cbn; rewrite P0; auto).
    eexists. split; [reflexivity|]. constructor.
    - constructor; cbn.
      + rewrite P0, map_app. cbn. apply NoDup_Add with (a := id) (l := map tId (hPend s) ++ []); [apply Add_app|].
        rewrite app_nil_r. split; auto. apply (b_nodup _ NI).
      + intros k' E. rewrite HK in E. injection E as <-. unfold stOK in *. destruct (kSt k); auto.
        * destruct ST as (B1 & B2 & B3 & x & W1 & W2). repeat split; auto. exists x. split; auto. apply in_or_app; auto.
        * destruct ST as (B1 & x & W1 & W2). split; auto. exists x. split; auto. apply in_or_app; auto.
      + intros t T. rewrite P0 in T. apply in_app_or in T. destruct T as [T|[<-|[]]].
        * destruct (b_tk _ NI t T) as [|(X1 & X2 & X3 & k0 & X4 & X5)]; auto. right.
          destruct CS as [CS|CS]; [|congruence]. repeat split; auto. exists k0. cbn. rewrite HK. split; auto. congruence.
        * left. left. cbn. auto.
    - unfold ots; cbn. rewrite HK. destruct CS as [-> | ->]; cbn; [now left|right; exact Logic.I].
    - cbn. rewrite O0. constructor. }
  destruct (hKey s) as [k|] eqn:HK.
  - pose proof (b_st _ NI k HK) as ST.
    destruct (kSt k) eqn:SK; try (apply (BUF k s); auto; fail).
    eexists. split; [reflexivity|]. unfold closeDone. cbn [tPseudo newTicket tId tOp].
    destruct (unblock_b s k HK (b_nodup _ NI)) as (U1 & U2 & U3).
    constructor.
    + unfold stOK in ST. rewrite SK in ST. eapply (mk _ k); cbn; auto.
      * rewrite U2. apply map_filter_nodup. apply (b_nodup _ NI).
      * rewrite U2. intros t T. apply filter_In in T. eapply noown; eauto; [congruence|tauto].
    + unfold ots; cbn. rewrite U1, HK. now left.
    + cbn. apply Forall_app. split; [apply U3; rewrite HO; constructor|repeat constructor].
  - destruct ((cRD c =? 1) || negb w) eqn:E.
    + eexists. split; [reflexivity|]. constructor.
      * destruct NI as [N1 N2 N3]. constructor; auto.
      * now left.
      * cbn. rewrite HO. repeat constructor.
    + apply orb_false_iff in E. destruct E as [E _]. apply Nat.eqb_neq in E.
      cbn [kSt]. apply (BUF (KM (TS 0 n) SInvalid n None) (setKey (KM (TS 0 n) SInvalid n None) s)); auto.
      unfold stOK; cbn. left. auto.
Qed.

(* ---- INV ---- *)
Lemma inv_b s from t v tid : NIb s -> hOut s = [] -> from <> n -> tcid t = from -> I tid t v ->
  exists s', recvInv c n from t v tid s = HOk s' /\ pB s s'.
Proof.
  intros NI HO NE TC IT. unfold recvInv.
  set (s0 := match hKey s with None => _ | Some _ => s end).
  assert (S0 : exists k0, hKey s0 = Some k0 /\ hPend s0 = hPend s /\ hOut s0 = [] /\
    ((hKey s = None /\ k0 = KM t SInvalid from v) \/ hKey s = Some k0)).
  { unfold s0. destruct (hKey s) as [k|] eqn:HK; [exists k|eexists]; cbn; repeat split; eauto. }
  destruct S0 as (k0 & HK0 & PE0 & HO0 & CS). rewrite HK0. rewrite bc, not2. cbn [andb].
  assert (IDS := b_nodup _ NI).
  (* adopting the INV, in a state x the caller then sets *)
  assert (ADOPT : forall s1 k1 (g : nst -> nst) x,
    hKey s1 = Some k1 -> NoDup (map tId (hPend s1)) -> (forall u, In u (hPend s1) -> tkOK u) ->
    Forall outB (hOut s1) -> ole c (ots s) (Some t) ->
    (forall s2, hKey s2 = Some (KM t (kSt k1) from v) ->
       hKey (g s2) = Some (KM t x from v) /\ hPend (g s2) = hPend s2 /\ hOut (g s2) = hOut s2) ->
    x = SInvalid \/ x = SInvalidWR \/ x = SValid ->
    exists s', bind (bind (actionI c from t v tid s1) (fun s2 => HOk (sendAck c n from t tid (g s2)))) (fun s3 => HOk s3) = HOk s' /\ pB s s').
  { intros s1 k1 g x HK1 ND1 TK1 OO1 MO GS X.
    unfold actionI. rewrite HK1, bc, not2.
    set (sa := setKey (KM t (kSt k1) from v) s1).
    assert (NEW : exists s2, match getTicket tid sa with
              | None => recordPending (newTicket tid WRITE v t from true true) sa
              | Some tk => if tPseudo tk then HOk (modTicket tid (setVT v t true) sa) else HOk sa
              end = HOk s2 /\ hKey s2 = Some (KM t (kSt k1) from v) /\ hOut s2 = hOut s1 /\
              NoDup (map tId (hPend s2)) /\ (forall u, In u (hPend s2) -> tkOK u) /\
              exists w, In w (hPend s2) /\ tOp w = WRITE /\ tTS w = t /\ tVal w = v).
    { destruct (getTicket tid sa) as [tk|] eqn:G.
      - apply getTicket_some in G. destruct G as [G1 G2]. change (hPend sa) with (hPend s1) in G1.
        destruct (TK1 tk G1) as [(A & _ & B)|(A & B & FN & v' & C & D)].
        + exfalso. apply (B t v). rewrite G2. auto.
        + rewrite B. eexists. split; [reflexivity|]. split; [reflexivity|]. split; [reflexivity|].
          rewrite G2 in C. destruct (Ifun1 _ _ _ _ _ C IT) as [E1 E2].
          split; [rewrite modTicket_ids; auto|]. split.
          * intros u U. apply modTicket_in in U. destruct U as (u0 & U & ->). change (hPend sa) with (hPend s1) in U.
            destruct (Nat.eqb_spec (tId u0) tid) as [E|E]; auto.
            assert (u0 = tk) by (eapply nodup_tid; eauto; congruence). subst u0.
            right. cbn. repeat split; auto. exists v. rewrite G2. auto.
          * exists (setVT v t true tk). split; [|auto]. apply modTicket_in. exists tk. rewrite G2, Nat.eqb_refl. auto.
      - apply getTicket_none in G. change (hPend sa) with (hPend s1) in G.
        rewrite recordPending_fresh by auto. eexists. split; [reflexivity|]. split; [reflexivity|]. split; [reflexivity|]. cbn.
        split; [|split].
        + rewrite map_app. cbn. apply NoDup_Add with (a := tid) (l := map tId (hPend s1) ++ []); [apply Add_app|].
          rewrite app_nil_r. auto.
        + intros u U. apply in_app_or in U. destruct U as [U|[<-|[]]]; auto. right. cbn. repeat split; auto. exists v. auto.
        + eexists. split; [apply in_or_app; right; left; reflexivity|]. auto. }
    destruct NEW as (s2 & E2 & K2 & O2 & ND2 & TK2 & w & W1 & W2). rewrite E2. cbn [bind].
    set (s3 := modTicket tid (addAck from) s2).
    assert (K3 : hKey s3 = Some (KM t (kSt k1) from v)) by exact K2.
    destruct (GS _ K3) as (G1 & G4 & G5).
    unfold sendAck. rewrite bc.
    eexists. split; [reflexivity|]. constructor.
    - eapply (mk _ (KM t x from v)); cbn; rewrite ?G1, ?G4; eauto.
      + destruct X as [-> | [-> | ->]]; auto. right. right. split; auto.
        exists (if tId w =? tid then addAck from w else w). split; [apply (modTicket_in tid (addAck from) s2); exists w; auto|].
        destruct (tId w =? tid); auto.
      + change (NoDup (map tId (hPend (modTicket tid (addAck from) s2)))). rewrite modTicket_ids; auto.
      + intros u U. apply (modTicket_in tid (addAck from) s2) in U. destruct U as (u0 & U & ->). destruct (tId u0 =? tid); [apply tkOK_addAck|]; auto.
    - unfold ots at 2; cbn. rewrite G1. auto.
    - cbn. rewrite G5. cbn. rewrite O2. apply Forall_app. split; auto. repeat constructor; eauto. }
  assert (TKS : (forall k, hKey s = Some k -> kSt k <> SWrite) -> forall u, In u (hPend s0) -> tkOK u).
  { intros H u U. rewrite PE0 in U. eapply noown; eauto. }
  assert (ND0 : NoDup (map tId (hPend s0))) by (rewrite PE0; auto).
  assert (OO0 : Forall outB (hOut s0)) by (rewrite HO0; constructor).
  assert (STg : forall x y s2, hKey s2 = Some (KM t y from v) ->
     hKey (setSt x s2) = Some (KM t x from v) /\ hPend (setSt x s2) = hPend s2 /\ hOut (setSt x s2) = hOut s2).
  { intros x y s2 A. unfold setSt. rewrite A. cbn. auto. }
  destruct (tsCompare c t (kTS k0)) eqn:CMP.
  - apply tc_eq in CMP.
    assert (NW : kSt k0 <> SWrite).
    { destruct CS as [[_ ->]|HK]; [discriminate|]. intros E. pose proof (b_st _ NI k0 HK) as Q. unfold stOK in Q. rewrite E in Q.
      destruct Q as (_ & Q & _). congruence. }
    apply (ADOPT s0 k0 (fun x => x) (kSt k0)); auto.
    + apply TKS. intros k E. destruct CS as [[CS _]|CS]; congruence.
    + destruct CS as [[CS ->]|CS]; unfold ots; rewrite CS; cbn; [right; exact Logic.I|rewrite CMP; now left].
    + destruct CS as [[CS ->]|CS]; cbn; auto. pose proof (b_st _ NI k0 CS) as Q. unfold stOK in Q.
      destruct (kSt k0); auto; tauto.
  - destruct CS as [[HK ->]|HK]; [cbn in CMP; rewrite tc_refl in CMP; discriminate|].
    assert (S0E : s0 = s) by (unfold s0; rewrite HK; auto). rewrite S0E in *.
    cbn [bind]. unfold sendAck. rewrite bc.
    eexists. split; [reflexivity|]. constructor.
    + destruct NI; constructor; auto.
    + now left.
    + cbn. rewrite HO. repeat constructor; eauto.
  - assert (LT : tlt c (kTS k0) t) by (apply tc_gt; auto).
    destruct CS as [[HK ->]|HK]; [cbn in CMP; rewrite tc_refl in CMP; discriminate|].
    assert (S0E : s0 = s) by (unfold s0; rewrite HK; auto). rewrite S0E in *.
    assert (MO : ole c (ots s) (Some t)) by (unfold ots; rewrite HK; right; exact LT).
    pose proof (b_st _ NI k0 HK) as Q. unfold stOK in Q.
    destruct (kSt k0) eqn:ST.
    + apply (ADOPT s k0 (setSt SInvalid) SInvalid); auto; [apply TKS; congruence|]. intros s2 A. eapply STg; eauto.
    + apply (ADOPT s k0 (fun x => x) SInvalid); auto; [apply TKS; congruence|]. rewrite ST. auto.
    + (* our write is overwritten *)
      destruct Q as (L1 & L2 & _ & w & W & WO & WP & WF & k' & E1 & _ & E3 & E4 & E5).
      assert (k' = k0) by congruence. subst k'.
      destruct (in_split _ _ W) as (pre & pst & PQ).
      assert (NOTW : forall u, In u (pre ++ pst) -> tkOK u).
      { intros u U.
        assert (Uin : In u (hPend s)) by (rewrite PQ; apply in_app_or in U; apply in_or_app; cbn; tauto).
        destruct (b_tk _ NI u Uin) as [|(_ & _ & _ & k' & F1 & _ & F3 & _ & F5)]; auto. exfalso.
        assert (k' = k0) by congruence. subst k'. rewrite F3 in F5. rewrite E3 in E5.
        destruct (Ifun2 _ _ _ _ _ E5 F5) as [EI _].
        rewrite PQ, map_app in IDS. cbn in IDS. apply NoDup_remove in IDS. destruct IDS as [_ N].
        apply N. rewrite <- map_app. rewrite EI. apply in_map. auto. }
      rewrite (release_one c s k0 pre w pst); auto.
      * cbn [bind]. unfold closeDone. rewrite WP.
        apply (ADOPT _ k0 (setSt SInvalidWR) SInvalidWR); auto.
        -- cbn. rewrite PQ, map_app in IDS. cbn in IDS. apply NoDup_remove in IDS. rewrite map_app. tauto.
        -- cbn. rewrite HO. repeat constructor.
        -- intros s2 A. eapply STg; eauto.
      * unfold matches. rewrite WO, WF, L1, Nat.eqb_refl, E3, tc_refl. auto.
      * intros u U. unfold matches. destruct (NOTW u U) as [(A & _)|(A & _ & F & _)]; rewrite A; auto.
        rewrite L1, (proj2 (Nat.eqb_neq _ _) F). auto.
    + contradiction.
    + apply (ADOPT s k0 (fun x => x) SInvalidWR); auto; [apply TKS; congruence|]. rewrite ST. auto.
Qed.

(* ---- ACK ---- *)
Lemma ack_b s from t v tid : NIb s -> hOut s = [] -> from <> n -> I tid t v ->
  exists s', recvAck c n from t tid s = HOk s' /\ pB s s'.
Proof.
  intros NI HO NE IT. unfold recvAck. rewrite bc.
  assert (IDS := b_nodup _ NI).
  (* the record of an ACK that came first *)
  assert (ADD : forall kb, ~ In tid (map tId (hPend s)) ->
    exists s1, recordPending (newTicket tid WRITE None t from true kb) s = HOk s1 /\ NIb s1 /\ hKey s1 = hKey s /\ hOut s1 = [] /\ In tid (map tId (hPend s1))).
  { intros kb F. rewrite recordPending_fresh by auto. eexists. split; [reflexivity|]. split; [|repeat split; auto; cbn; rewrite map_app; apply in_or_app; right; left; reflexivity].
    constructor; cbn.
    - rewrite map_app. cbn. apply NoDup_Add with (a := tid) (l := map tId (hPend s) ++ []); [apply Add_app|].
      rewrite app_nil_r. auto.
    - intros k E. pose proof (b_st _ NI k E) as Q. unfold stOK in *. destruct (kSt k); auto.
      + destruct Q as (B1 & B2 & B3 & x & W1 & W2). repeat split; auto. exists x. split; auto. apply in_or_app; auto.
      + destruct Q as (B1 & x & W1 & W2). split; auto. exists x. split; auto. apply in_or_app; auto.
    - intros u U. apply in_app_or in U. destruct U as [U|[<-|[]]].
      + destruct (b_tk _ NI u U); auto.
      + left. right. cbn. repeat split; auto. exists v. auto. }
  destruct (hKey s) as [k|] eqn:HK.
  2:{ assert (X : exists s1, match getTicket tid s with
              | None => recordPending (newTicket tid WRITE None t from true false) s
              | Some _ => HOk s end = HOk s1 /\ NIb s1 /\ hKey s1 = None /\ hOut s1 = []).
      { destruct (getTicket tid s) as [t0|] eqn:G.
        - exists s. auto.
        - destruct (ADD false) as (s1 & A & B & C & D & _); [now apply getTicket_none in G|]. exists s1. auto. }
      destruct X as (s1 & -> & N1 & K1 & O1). cbn [bind]. eexists. split; [reflexivity|]. constructor.
      - now apply NIb_addAck.
      - unfold ots; cbn. rewrite HK, K1. now left.
      - cbn. rewrite O1. constructor. }
  (* with the ticket in place *)
  assert (REST : forall s1, NIb s1 -> hKey s1 = Some k -> hOut s1 = [] -> (exists t0, getTicket tid s1 = Some t0) ->
    exists s', (let s2 := modTicket tid (addAck from) s1 in
       match getTicket tid s2 with
       | None => HPanic s2
       | Some t2 =>
           match tVal t2, cRD c <=? 2 with
           | Some _, true => completeWrite tid (setSt SValid s2)
           | _, _ => match tsCompare c t (kTS k) with Eq => recvAck2 c n from t tid k s2 | _ => HOk s2 end
           end
       end) = HOk s' /\ pB s s').
  { intros s1 N1 K1 O1 (t0 & T0). cbv zeta. rewrite not2.
    set (s2 := modTicket tid (addAck from) s1).
    assert (N2 : NIb s2) by now apply NIb_addAck.
    assert (K2 : hKey s2 = Some k) by exact K1.
    assert (O2 : hOut s2 = []) by exact O1.
    assert (T2 : exists t2, getTicket tid s2 = Some t2).
    { apply getTicket_some in T0. destruct T0 as [T0 T0'].
      exists (addAck from t0). apply getTicket_in; [apply (b_nodup _ N2)| |auto].
      apply modTicket_in. exists t0. rewrite T0', Nat.eqb_refl. auto. }
    destruct T2 as [t2 T2]. rewrite T2.
    clearbody s2.
    assert (DONE : pB s s2).
    { constructor; auto; [unfold ots; rewrite HK, K2; now left|rewrite O2; constructor]. }
    assert (MAIN : t = kTS k -> exists s', recvAck2 c n from t tid k s2 = HOk s' /\ pB s s').
    { intros EQ. rewrite EQ in IT. unfold recvAck2, actionLA. rewrite bc. rewrite T2.
      apply getTicket_some in T2. destruct T2 as [T2i T2e].
      destruct (idW s2 t2 tid _ _ N2 T2i T2e IT) as [T2o T2t].
      set (s3 := modTicket tid (addAck from) s2).
      assert (N3 : NIb s3) by now apply NIb_addAck.
      assert (P3 : pB s s3).
      { constructor; auto; [unfold ots; change (hKey s3) with (hKey s2); rewrite HK, K2; now left|].
        change (hOut s3) with (hOut s2). rewrite O2. constructor. }
      assert (W3 : In (addAck from t2) (hPend s3)).
      { apply modTicket_in. exists t2. rewrite T2e, Nat.eqb_refl. auto. }
      assert (OT : ots s = Some (kTS k)) by (unfold ots; now rewrite HK).
      pose proof (b_st _ N3 k K2) as Q. unfold stOK in Q.
      destruct (kSt k) eqn:ST; rewrite ?T2o.
      - exists s2. auto.
      - match goal with |- context [if ?b then _ else _] => destruct b end; [|exists s3; auto].
        set (s4 := setSt SValid (modTicket tid (setVT (kVal k) (kTS k) false) s3)).
        assert (K4 : hKey s4 = Some (withSt k SValid)) by (unfold s4, setSt; cbn; rewrite K2; reflexivity).
        assert (P4 : hPend s4 = hPend (modTicket tid (setVT (kVal k) (kTS k) false) s3)) by (unfold s4, setSt; cbn; rewrite K2; reflexivity).
        assert (O4 : hOut s4 = []) by (unfold s4, setSt; cbn; rewrite K2; exact O2).
        destruct (complete_b s4 (withSt k SValid) (setVT (kVal k) (kTS k) false (addAck from t2)) tid) as (s' & A & B & C & D); auto.
        + rewrite P4, modTicket_ids; auto. apply (b_nodup _ N3).
        + rewrite P4. apply modTicket_in. exists (addAck from t2). split; auto. cbn. rewrite T2e, Nat.eqb_refl. auto.
        + cbn. destruct Q as [[Q _]|Q]; auto. exfalso. pose proof (Ipos _ _ _ IT) as X. rewrite Q in X. cbn in X. lia.
        + rewrite P4. intros u U NEu. apply modTicket_in in U. destruct U as (u0 & U & ->).
          destruct (Nat.eqb_spec (tId u0) tid) as [E|E]; [exfalso; apply NEu; exact E|].
          eapply noown; eauto. change (hKey s3) with (hKey s2). congruence.
        + rewrite O4. constructor.
        + exists s'. split; auto. constructor; auto. rewrite C, OT. unfold ots. rewrite K4. now left.
      - match goal with |- context [if ?b then _ else _] => destruct b end; [|exists s3; auto].
        set (s4 := setSt SValid s3).
        assert (K4 : hKey s4 = Some (withSt k SValid)) by (unfold s4, setSt; change (hKey s3) with (hKey s2); rewrite K2; reflexivity).
        assert (P4 : hPend s4 = hPend s3) by (unfold s4, setSt; change (hKey s3) with (hKey s2); rewrite K2; reflexivity).
        assert (O4 : hOut s4 = []) by (unfold s4, setSt; change (hKey s3) with (hKey s2); rewrite K2; exact O2).
        destruct Q as (_ & _ & IK & w & W & WO & WP & WF & k' & E1 & _ & E3 & E4 & E5).
        assert (k' = k) by (change (hKey s3) with (hKey s2) in E1; congruence). subst k'.
        assert (WI : tId w = tid). { rewrite E3 in E5. apply (Ifun2 _ _ _ _ _ E5 IT). }
        destruct (complete_b s4 (withSt k SValid) w tid) as (s' & A & B & C & D); auto; rewrite ?P4; auto.
        + apply (b_nodup _ N3).
        + intros u U NEu. destruct (b_tk _ N3 u U) as [|(_ & _ & _ & k' & F1 & _ & F3 & _ & F5)]; auto. exfalso.
          assert (k' = k) by (change (hKey s3) with (hKey s2) in F1; congruence). subst k'.
          rewrite F3 in F5. apply NEu. apply (Ifun2 _ _ _ _ _ F5 IT).
        + rewrite O4. constructor.
        + rewrite A. cbn [bind]. exists s'. split; auto. constructor; auto. rewrite C, OT. unfold ots. rewrite K4. now left.
      - contradiction.
      - match goal with |- context [if ?b then _ else _] => destruct b end; [|exists s3; auto].
        set (s4 := setSt SValid s3).
        assert (K4 : hKey s4 = Some (withSt k SValid)) by (unfold s4, setSt; change (hKey s3) with (hKey s2); rewrite K2; reflexivity).
        assert (P4 : hPend s4 = hPend s3) by (unfold s4, setSt; change (hKey s3) with (hKey s2); rewrite K2; reflexivity).
        assert (O4 : hOut s4 = []) by (unfold s4, setSt; change (hKey s3) with (hKey s2); rewrite K2; exact O2).
        destruct Q as (IK & w & W & WO & E3 & E4).
        destruct (wrI s3 w N3 W WO) as (v' & WX). rewrite E3 in WX.
        assert (WI : tId w = tid) by apply (Ifun2 _ _ _ _ _ WX IT).
        destruct (complete_b s4 (withSt k SValid) w tid) as (s' & A & B & C & D); auto; rewrite ?P4; auto.
        + apply (b_nodup _ N3).
        + intros u U NEu. eapply noown; eauto. change (hKey s3) with (hKey s2). congruence.
        + rewrite O4. constructor.
        + exists s'. split; auto. constructor; auto. rewrite C, OT. unfold ots. rewrite K4. now left. }
    assert (G : exists s', match tsCompare c t (kTS k) with Eq => recvAck2 c n from t tid k s2 | _ => HOk s2 end = HOk s' /\ pB s s').
    { destruct (tsCompare c t (kTS k)) eqn:CMP; [|exists s2; auto|exists s2; auto].
      apply MAIN. now apply (tc_eq c). }
    destruct (tVal t2); exact G. }
  assert (STEP : forall o : option tkt, o = getTicket tid s -> exists s', bind (match o with
                  | None => recordPending (newTicket tid WRITE None t from true true) s
                  | Some _ => HOk s
                  end)
              (fun s1 => let s2 := modTicket tid (addAck from) s1 in
       match getTicket tid s2 with
       | None => HPanic s2
       | Some t2 =>
           match tVal t2, cRD c <=? 2 with
           | Some _, true => completeWrite tid (setSt SValid s2)
           | _, _ => match tsCompare c t (kTS k) with Eq => recvAck2 c n from t tid k s2 | _ => HOk s2 end
           end
       end) = HOk s' /\ pB s s').
  { intros [t0|] E.
    - cbn [bind]. apply REST; auto. exists t0; auto.
    - symmetry in E. apply getTicket_none in E. destruct (ADD true E) as (s1 & -> & N1 & K1 & O1 & I1). cbn [bind].
      apply REST; auto.
      destruct (getTicket tid s1) as [t0|] eqn:G; eauto. apply getTicket_none in G. contradiction. }
  destruct (getTicket tid s) as [t0|] eqn:G; [destruct (tsCompare c t (kTS k)) eqn:CMP|].
  - apply (STEP (Some t0)); auto.
  - unfold deleteTicket. rewrite G. eexists. split; [reflexivity|].
    apply getTicket_some in G. destruct G as [G1 G2]. destruct (idW s t0 tid _ _ NI G1 G2 IT) as [G3 G4].
    assert (NEQ : kTS k <> t) by (intros E; rewrite E, tc_refl in CMP; discriminate).
    constructor; cbn.
    + constructor; cbn.
      * apply dropId_nodup; auto.
      * intros k' E. pose proof (b_st _ NI k' E) as Q. rewrite HK in E. injection E as <-.
        unfold stOK in *. destruct (kSt k); auto.
        -- destruct Q as (B1 & B2 & B3 & x & W1 & W2). repeat split; auto. exists x. split; auto.
           apply dropId_in. split; auto. intros E. destruct W2 as (_ & _ & _ & k' & F1 & _ & F3 & _ & F5).
           assert (k' = k) by congruence. subst k'. rewrite E in F5. apply NEQ. rewrite <- F3. apply (Ifun1 _ _ _ _ _ F5 IT).
        -- destruct Q as (B1 & x & W1 & W2 & W3 & W4). split; auto. exists x. split; auto.
           apply dropId_in. split; auto. intros E. destruct (wrI s x NI W1 W2) as (v' & X).
           rewrite E in X. apply NEQ. rewrite <- W3. apply (Ifun1 _ _ _ _ _ X IT).
      * intros u U. apply dropId_in in U. destruct U as [U _]. destruct (b_tk _ NI u U); auto.
    + now left.
    + rewrite HO. constructor.
  - apply (STEP (Some t0)); auto.
  - apply (STEP None); auto.
Qed.

(* ---- VALIDATE is never sent ---- *)
End H.
End B.
