(* One node, ACKs sent to the coordinator only, no deadline passing and
   writes only to a key that is not busy: every handler keeps the node's
   invariant, never panics, and answers only when the key is valid. *)

From Coq Require Import List Arith Bool Lia.
Import ListNotations.
From Verif Require Import Herm_Spec Herm_Model Herm_Order Herm_Tick.

Definition doneId (o : out) : list (nat * top) :=
  match o with ODone id op _ => [(id, op)] | _ => [] end.
Definition dones (os : list out) : list (nat * top) := flat_map doneId os.
Definition pids (p : list tkt) : list (nat * top) := map (fun t => (tId t, tOp t)) p.

Lemma pids_fst p : map fst (pids p) = map tId p.
Proof. unfold pids. rewrite map_map. auto. Qed.

Lemma addAck_id f t : tId (addAck f t) = tId t. Proof. reflexivity. Qed.

Lemma addAck_acks f t a : In a (tAcks (addAck f t)) <-> a = f \/ In a (tAcks t).
Proof.
  unfold addAck; cbn. destruct (existsb (Nat.eqb f) (tAcks t)) eqn:E; cbn; [|intuition congruence].
  apply existsb_exists in E. destruct E as (x & X & Y). apply Nat.eqb_eq in Y. subst.
  intuition congruence.
Qed.

Lemma addAck_nodup f t : NoDup (tAcks t) -> NoDup (tAcks (addAck f t)).
Proof.
  unfold addAck; cbn. destruct (existsb (Nat.eqb f) (tAcks t)) eqn:E; auto.
  intros N. constructor; auto. intros I.
  assert (existsb (Nat.eqb f) (tAcks t) = true); [|congruence].
  apply existsb_exists. exists f. split; auto. apply Nat.eqb_refl.
Qed.

(* n - 1 different nodes other than me are all the others *)
Lemma all_acks N me l : NoDup l -> (forall a, In a l -> a < N /\ a <> me) -> me < N ->
  length l = N - 1 -> forall a, a < N -> a <> me -> In a l.
Proof.
  intros ND H M L a A NE.
  assert (NDm : NoDup (me :: l)) by (constructor; auto; intros I; apply H in I; lia).
  assert (I : incl (me :: l) (seq 0 N)).
  { intros x [<-|X]; apply in_seq; [lia|]. apply H in X. lia. }
  assert (Q : incl (seq 0 N) (me :: l)).
  { apply NoDup_length_incl; auto. rewrite seq_length. cbn. lia. }
  destruct (Q a) as [|]; auto; [apply in_seq; lia|congruence].
Qed.

Section U.
Variable c : cfg.
Hypothesis inj : hashInj c.
Hypothesis uni : cBcast c = false.

Record NIu (I : nat -> ts -> option nat -> Prop) (K : nat -> ts -> Prop) (n : nat) (s : nst) : Prop := {
  u_nodup : NoDup (map tId (hPend s));
  u_none : hKey s = None -> hPend s = [];
  u_key : forall k, hKey s = Some k ->
    (kSt k = SInvalid /\ kTS k = TS 0 n /\ cRD c <> 1 /\ kVal k = None) \/ (exists id, I id (kTS k) (kVal k));
  u_st : forall k, hKey s = Some k ->
    match kSt k with
    | SValid => (exists id, I id (kTS k) (kVal k)) /\ (forall a, a < cRD c -> a <> n -> K a (kTS k))
    | SInvalid => True
    | SWrite => kLast k = n /\ tcid (kTS k) = n /\ (exists w, In w (hPend s) /\ tOp w = WRITE)
    | SReplay => False
    | SInvalidWR => tcid (kTS k) <> n
    end;
  u_rd : forall t, In t (hPend s) -> tPseudo t = false /\ tFrom t = n /\
    (tOp t = READ -> forall x v, ~ I (tId t) x v);
  u_wr : forall t, In t (hPend s) -> tOp t = WRITE ->
    exists k, hKey s = Some k /\ kSt k = SWrite /\ tTS t = kTS k /\ tVal t = kVal k /\
      I (tId t) (tTS t) (tVal t) /\ NoDup (tAcks t) /\
      (forall a, In a (tAcks t) -> a < cRD c /\ a <> n /\ K a (tTS t)) }.

Definition validAs (s : nst) (v : option nat) (t : ts) : Prop :=
  exists k, hKey s = Some k /\ kSt k = SValid /\ kTS k = t /\ kVal k = v.

Definition outOK (I : nat -> ts -> option nat -> Prop) (n : nat) (s : nst) (o : out) : Prop :=
  match o with
  | OBcast (MInv f t v tid) => f = n /\ I tid t v /\ tcid t = n /\ ots s = Some t
  | OBcast (MVal _ t _) => exists v, validAs s v t
  | OSend d (MAck f t tid) => f = n /\ d = tcid t /\ d <> n /\ ole c (Some t) (ots s) /\ (exists v, I tid t v)
  | ODone id READ (TOk v t) => validAs s v t
  | ODone id READ TNotFound => hKey s = None
  | ODone id WRITE (TOk v t) => validAs s v t /\ I id t v
  | ODone id WRITE TOverWrit => True
  | _ => False
  end.

Record post (I : nat -> ts -> option nat -> Prop) (K : nat -> ts -> Prop) (n : nat)
  (s s' : nst) (news : list (nat * top)) : Prop := {
  p_ni : NIu I K n s';
  p_mono : ole c (ots s) (ots s');
  p_out : Forall (outOK I n s') (hOut s');
  p_nodup : NoDup (map fst (dones (hOut s') ++ pids (hPend s')));
  p_from : incl (dones (hOut s') ++ pids (hPend s')) (news ++ pids (hPend s)) }.

Section H.
Variable I : nat -> ts -> option nat -> Prop.
Variable K : nat -> ts -> Prop.
Variable n : nat.
Hypothesis nN : n < cRD c.
Hypothesis Ifun1 : forall id t v t' v', I id t v -> I id t' v' -> t = t' /\ v = v'.
Hypothesis Ifun2 : forall id t v id' v', I id t v -> I id' t v' -> id = id' /\ v = v'.
Hypothesis Ipos : cRD c <> 1 -> forall id t v, I id t v -> 1 <= tver t.

Lemma wr_unique s t t' : NIu I K n s -> In t (hPend s) -> In t' (hPend s) ->
  tOp t = WRITE -> tOp t' = WRITE -> t = t'.
Proof.
  intros NI A B O O'. destruct (u_wr _ _ _ _ NI t A O) as (k & E1 & _ & E2 & _ & E3 & _).
  destruct (u_wr _ _ _ _ NI t' B O') as (k' & F1 & _ & F2 & _ & F3 & _).
  assert (k = k') by congruence. subst k'.
  rewrite E2 in E3. rewrite F2 in F3. destruct (Ifun2 _ _ _ _ _ E3 F3) as [E _].
  eapply nodup_tid; eauto. apply (u_nodup _ _ _ _ NI).
Qed.

Lemma nowr s : NIu I K n s -> (forall k, hKey s = Some k -> kSt k <> SWrite) ->
  forall t, In t (hPend s) -> tOp t = READ.
Proof.
  intros NI H t T. destruct (tOp t) eqn:O; auto.
  destruct (u_wr _ _ _ _ NI t T O) as (k & A & B & _). exfalso. eapply H; eauto.
Qed.

Lemma filter_nowr (p : list tkt) : (forall t, In t p -> tOp t = READ) -> filter isWriteT p = [].
Proof.
  induction p as [|x p IH]; cbn; intros H; auto.
  unfold isWriteT at 1. rewrite (H x) by auto. apply IH; auto.
Qed.

Lemma rdones_dones k p : (forall t, In t p -> tPseudo t = false) ->
  dones (rdones k p) = filter (fun x => match snd x with READ => true | WRITE => false end) (pids p).
Proof.
  induction p as [|t p IH]; cbn; intros H; auto.
  unfold rdones, dones in *. cbn [flat_map]. rewrite flat_map_app. rewrite IH by auto.
  unfold rdone. destruct (tOp t); cbn; auto. rewrite (H t) by auto. cbn. auto.
Qed.

Lemma dones_app a b : dones (a ++ b) = dones a ++ dones b.
Proof. apply flat_map_app. Qed.

Lemma rdones_out s k v t p : validAs s v t -> kVal k = v -> kTS k = t ->
  Forall (outOK I n s) (rdones k p).
Proof.
  intros V <- <-. induction p as [|x p IH]; cbn; auto. unfold rdones in *; cbn.
  apply Forall_app. split; auto. unfold rdone. destruct (tOp x); auto. destruct (tPseudo x); auto.
Qed.

Lemma nodup_split (p : list tkt) : NoDup (map tId p) ->
  NoDup (map fst (filter (fun x => match snd x with READ => true | WRITE => false end) (pids p)
                  ++ pids (filter isWriteT p))).
Proof.
  induction p as [|t p IH]; cbn; intros N; [constructor|]. inversion N as [|x l H1 H2]; subst.
  assert (Q : ~ In (tId t) (map fst (filter (fun x : nat * top => match snd x with READ => true | WRITE => false end) (pids p) ++ pids (filter isWriteT p)))).
  { intros H. apply H1. apply in_map_iff in H. destruct H as ((i & o) & E & H). cbn in E. subst i.
    apply in_app_or in H. destruct H as [H|H].
    - apply filter_In in H. destruct H as [H _]. apply in_map_iff in H. destruct H as (y & E & H).
      injection E as <- _. now apply in_map.
    - apply in_map_iff in H. destruct H as (y & E & H). apply filter_In in H. injection E as <- _. now apply in_map. }
  unfold isWriteT at 1. destruct (tOp t); cbn.
  - constructor; auto.
  - rewrite map_app in *. cbn. apply NoDup_Add with (a := tId t)
      (l := map fst (filter (fun x : nat * top => match snd x with READ => true | WRITE => false end) (pids p)) ++ map fst (pids (filter isWriteT p))).
    + apply Add_app.
    + auto.
Qed.

Lemma incl_split (p : list tkt) :
  incl (filter (fun x => match snd x with READ => true | WRITE => false end) (pids p) ++ pids (filter isWriteT p)) (pids p).
Proof.
  intros x H. apply in_app_or in H. destruct H as [H|H].
  - apply filter_In in H. tauto.
  - apply in_map_iff in H. destruct H as (y & <- & H). apply filter_In in H. apply in_map_iff. exists y. tauto.
Qed.

Local Arguments pids : simpl never.

(* the key becomes (or stays) valid and every read is answered *)
Lemma unblock_valid s s1 k news ds :
  NIu I K n s ->
  hKey s1 = Some k -> kSt k = SValid -> (exists id, I id (kTS k) (kVal k)) ->
  (forall a, a < cRD c -> a <> n -> K a (kTS k)) ->
  ole c (ots s) (Some (kTS k)) ->
  (forall t, In t (hPend s1) -> tOp t = READ /\ tPseudo t = false) ->
  Forall (outOK I n s1) (hOut s1) ->
  dones (hOut s1) = ds ->
  NoDup (map fst (ds ++ pids (hPend s1))) ->
  incl (ds ++ pids (hPend s1)) (news ++ pids (hPend s)) ->
  post I K n s (unblockReads s1) news.
Proof.
  intros NI K1 V IK AK MO RD OO DS ND IN.
  assert (ND1 : NoDup (map tId (hPend s1))).
  { rewrite <- pids_fst. rewrite map_app in ND. clear - ND. induction (map fst ds); cbn in *; auto.
    inversion ND; auto. }
  rewrite (unblockReads_eq _ _ K1 ND1).
  rewrite (filter_nowr (hPend s1)) by (intros; apply RD; auto).
  constructor.
  - constructor; cbn; auto; try tauto; try solve [constructor].
    + intros k' E. rewrite K1 in E. injection E as <-. auto.
    + intros k' E. rewrite K1 in E. injection E as <-. rewrite V. auto.
  - unfold ots at 2; cbn. rewrite K1. cbn. auto.
  - cbn. apply Forall_app. split.
    + eapply Forall_impl; [|exact OO]. intros o. unfold outOK, validAs, ots; cbn. auto.
    + eapply rdones_out; eauto. exists k. cbn. auto.
  - cbn. rewrite app_nil_r, dones_app, rdones_dones by (intros; apply RD; auto). rewrite DS.
    assert (F : filter (fun x : nat * top => match snd x with READ => true | WRITE => false end) (pids (hPend s1)) = pids (hPend s1)).
    { clear - RD. unfold pids. induction (hPend s1) as [|t p IH]; cbn; auto.
      rewrite (proj1 (RD t (or_introl eq_refl))). f_equal. apply IH. intros; apply RD; cbn; auto. }
    rewrite F. auto.
  - cbn. rewrite app_nil_r, dones_app, rdones_dones by (intros; apply RD; auto). rewrite DS.
    intros x H. apply IN. apply in_app_or in H. apply in_or_app. destruct H as [|H]; auto.
    apply filter_In in H. tauto.
Qed.

Lemma recordPending_fresh t s : ~ In (tId t) (map tId (hPend s)) ->
  recordPending t s = HOk (setPend (hPend s ++ [inPQ true t]) s).
Proof. intros H. unfold recordPending. now rewrite (proj2 (getTicket_none _ _) H). Qed.

(* a new READ ticket is buffered *)
Lemma buffer_read s id (k : keym) t :
  NIu I K n s -> hOut s = [] -> ~ In id (map tId (hPend s)) -> (forall x v, ~ I id x v) ->
  hKey s = Some k -> tId t = id -> tOp t = READ -> tPseudo t = false -> tFrom t = n ->
  post I K n s (setPend (hPend s ++ [inPQ true t]) s) [(id, READ)].
Proof.
  intros NI HO FR NI' HK E1 E2 E3 E4. constructor.
  - constructor; cbn.
    + rewrite map_app. cbn. apply NoDup_Add with (a := id) (l := map tId (hPend s) ++ []).
      * rewrite E1. apply Add_app.
      * rewrite app_nil_r. split; auto. apply (u_nodup _ _ _ _ NI).
    + congruence.
    + apply (u_key _ _ _ _ NI).
    + intros k' E. pose proof (u_st _ _ _ _ NI k' E) as Q. destruct (kSt k'); auto.
      destruct Q as (A & B & w & W & W'). repeat split; auto. exists w. split; auto. apply in_or_app; auto.
    + intros u U. apply in_app_or in U. destruct U as [U|[<-|[]]]; [apply (u_rd _ _ _ _ NI); auto|].
      cbn. rewrite E1. repeat split; auto.
    + intros u U O. apply in_app_or in U. destruct U as [U|[<-|[]]]; [apply (u_wr _ _ _ _ NI); auto|].
      cbn in O. congruence.
  - now left.
  - cbn. rewrite HO. constructor.
  - cbn. rewrite HO. cbn. rewrite pids_fst, map_app. cbn.
    apply NoDup_Add with (a := id) (l := map tId (hPend s) ++ []).
    * rewrite E1. apply Add_app.
    * rewrite app_nil_r. split; auto. apply (u_nodup _ _ _ _ NI).
  - cbn. rewrite HO. cbn. intros x H. unfold pids in H. rewrite map_app in H. apply in_app_or in H.
    destruct H as [H|[<-|[]]]; cbn; auto. left. congruence.
Qed.

Lemma readReq_post s id w :
  NIu I K n s -> hOut s = [] -> ~ In id (map tId (hPend s)) -> (forall x v, ~ I id x v) ->
  exists s', readReq c n id w s = HOk s' /\ post I K n s s' [(id, READ)].
Proof.
  intros NI HO FR NI'. unfold readReq.
  destruct (hKey s) as [k|] eqn:HK.
  - destruct (kSt k) eqn:ST.
    + (* valid *)
      eexists. split; [reflexivity|]. cbn. unfold closeDone. cbn.
      pose proof (u_st _ _ _ _ NI k HK) as Q. rewrite ST in Q. destruct Q as (Q1 & Q2).
      assert (RD : forall t, In t (hPend s) -> tOp t = READ).
      { apply nowr; auto. intros k' E. congruence. }
      assert (P : post I K n s (unblockReads s) []).
      { apply (unblock_valid s s k [] []); auto.
        - unfold ots. rewrite HK. now left.
        - intros t T. split; auto. apply (u_rd _ _ _ _ NI); auto.
        - rewrite HO. constructor.
        - rewrite HO; auto.
        - cbn. rewrite pids_fst. apply (u_nodup _ _ _ _ NI).
        - cbn. apply incl_refl. }
      pose proof (unblockReads_eq s k HK (u_nodup _ _ _ _ NI)) as UE.
      destruct P as [P1 P2 P3 P4 P5]. constructor.
      * destruct P1. constructor; auto.
      * unfold ots in *; cbn in *. auto.
      * cbn. apply Forall_app. split.
        -- eapply Forall_impl; [|exact P3]. intros o. unfold outOK, validAs, ots; cbn. auto.
        -- constructor; auto. cbn. exists k. rewrite UE. cbn. auto.
      * cbn. rewrite dones_app. cbn. rewrite <- app_assoc. cbn.
        rewrite map_app in *. cbn. apply NoDup_Add with (a := id)
          (l := map fst (dones (hOut (unblockReads s))) ++ map fst (pids (hPend (unblockReads s)))).
        -- apply Add_app.
        -- split; auto. rewrite <- map_app. intros H. apply FR.
           apply in_map_iff in H. destruct H as ((i & o) & E & H). cbn in E. subst i.
           apply P5 in H. cbn in H. apply (in_map fst) in H. rewrite pids_fst in H. auto.
      * cbn. rewrite dones_app. cbn. intros x H. rewrite <- app_assoc in H. apply in_app_or in H.
        destruct H as [H|[<-|H]]; cbn; auto; right; apply P5; apply in_or_app; auto.
    + rewrite recordPending_fresh by auto. eexists. split; [reflexivity|]. eapply buffer_read; eauto.
    + rewrite recordPending_fresh by auto. eexists. split; [reflexivity|]. eapply buffer_read; eauto.
    + rewrite recordPending_fresh by auto. eexists. split; [reflexivity|]. eapply buffer_read; eauto.
    + rewrite recordPending_fresh by auto. eexists. split; [reflexivity|]. eapply buffer_read; eauto.
  - assert (PE : hPend s = []) by (apply (u_none _ _ _ _ NI); auto).
    destruct ((cRD c =? 1) || negb w) eqn:B.
    + eexists. split; [reflexivity|]. constructor; cbn.
      * destruct NI. constructor; auto.
      * now left.
      * rewrite HO. constructor; [cbn; auto|constructor].
      * rewrite HO, PE. cbn. constructor; [intros []|constructor].
      * rewrite HO, PE. cbn. intros x [<-|[]]; cbn; auto.
    + apply orb_false_iff in B. destruct B as [B _]. apply Nat.eqb_neq in B.
      cbn [kSt].
      rewrite recordPending_fresh by (cbn; auto). eexists. split; [reflexivity|].
      constructor; cbn.
      * rewrite PE. constructor; cbn.
        -- constructor; [intros []|constructor].
        -- discriminate.
        -- intros k [= <-]. left. auto.
        -- intros k [= <-]. cbn. auto.
        -- intros t [<-|[]]. cbn. auto.
        -- intros t [<-|[]]. cbn. discriminate.
      * unfold ots; rewrite HK. cbn. right. cbn. auto.
      * rewrite HO. constructor.
      * rewrite HO, PE. cbn. constructor; [intros []|constructor].
      * rewrite HO, PE. cbn. intros x [<-|[]]; cbn; auto.
Qed.

(* ---- INV ---- *)
Lemma others_ok s s' k' :
  NIu I K n s -> hPend s' = hPend s -> (forall t, In t (hPend s) -> tOp t = READ) ->
  hKey s' = Some k' -> (exists id, I id (kTS k') (kVal k')) ->
  kSt k' = SInvalid \/ (kSt k' = SInvalidWR /\ tcid (kTS k') <> n) \/
    (kSt k' = SValid /\ forall a, a < cRD c -> a <> n -> K a (kTS k')) ->
  NIu I K n s'.
Proof.
  intros NI PE RD HK IK ST. constructor; rewrite ?PE.
  - apply (u_nodup _ _ _ _ NI).
  - congruence.
  - intros k E. rewrite HK in E. injection E as <-. auto.
  - intros k E. rewrite HK in E. injection E as <-.
    destruct ST as [->|[[-> ?]|[-> ?]]]; auto.
  - intros t T. apply (u_rd _ _ _ _ NI); auto.
  - intros t T O. rewrite (RD t T) in O. discriminate.
Qed.

Lemma recvInv_post s from t v tid :
  NIu I K n s -> hOut s = [] -> from <> n -> tcid t = from -> I tid t v ->
  exists s', recvInv c n from t v tid s = HOk s' /\ post I K n s s' [].
Proof.
  intros NI HO NE TC IT. unfold recvInv.
  set (s0 := match hKey s with None => _ | Some _ => s end).
  assert (S0 : exists k0, hKey s0 = Some k0 /\ hPend s0 = hPend s /\ hOut s0 = [] /\
    ((hKey s = None /\ k0 = KM t SInvalid from v) \/ hKey s = Some k0)).
  { unfold s0. destruct (hKey s) as [k|] eqn:HK; [exists k|eexists]; cbn; repeat split; eauto. }
  destruct S0 as (k0 & HK0 & PE0 & HO0 & CS). rewrite HK0. rewrite uni. cbn [andb].
  assert (IDS : NoDup (map tId (hPend s))) by apply (u_nodup _ _ _ _ NI).
  (* the common ending: the INV is adopted *)
  assert (FIN : forall s' st, (forall u, In u (hPend s) -> tOp u = READ) ->
     hKey s' = Some (KM t st from v) -> hPend s' = hPend s -> hOut s' = [OSend from (MAck n t tid)] ->
     (st = SInvalid \/ st = SInvalidWR \/ st = SValid /\ forall a, a < cRD c -> a <> n -> K a t) ->
     ole c (ots s) (Some t) -> post I K n s s' []).
  { intros s' st RD HK' PE' HO' ST MO. constructor.
    - eapply (others_ok s s'); eauto; cbn; eauto.
      destruct ST as [->|[->|[-> ?]]]; cbn; auto. right; left. split; auto. congruence.
    - unfold ots at 2. rewrite HK'. cbn. auto.
    - rewrite HO'. constructor; [|constructor]. cbn. repeat split; auto; try congruence.
      + unfold ots. rewrite HK'. cbn. now left.
      + eauto.
    - rewrite HO', PE'. cbn. rewrite pids_fst. auto.
    - rewrite HO', PE'. cbn. apply incl_refl. }
  destruct (tsCompare c t (kTS k0)) eqn:CMP.
  - (* equal *)
    apply tc_eq in CMP. unfold actionI. rewrite HK0, uni. cbn [bind]. eexists. split; [reflexivity|].
    unfold sendAck. rewrite uni.
    destruct CS as [[HK ->]|HK].
    + eapply (FIN _ SInvalid); cbn; auto.
      * rewrite (u_none _ _ _ _ NI HK). intros u [].
      * rewrite HO0. auto.
      * unfold ots. rewrite HK. right. cbn. auto.
    + assert (NW : kSt k0 <> SWrite).
      { intros E. pose proof (u_st _ _ _ _ NI k0 HK) as Q. rewrite E in Q. destruct Q as (_ & Q & _). congruence. }
      eapply (FIN _ (kSt k0)); cbn; auto.
      * apply nowr; auto. congruence.
      * rewrite HO0. auto.
      * pose proof (u_st _ _ _ _ NI k0 HK) as Q. destruct (kSt k0); try tauto. rewrite CMP. tauto.
      * unfold ots. rewrite HK. cbn. rewrite CMP. now left.
  - (* older than ours *)
    cbn [bind]. eexists. split; [reflexivity|]. unfold sendAck. rewrite uni.
    destruct CS as [[HK ->]|HK]; [cbn in CMP; rewrite tc_refl in CMP; discriminate|].
    constructor; cbn.
    + destruct NI. constructor; cbn; rewrite ?HK0, ?PE0, ?HK in *; auto.
    + unfold ots; cbn. rewrite HK, HK0. now left.
    + rewrite HO0. constructor; [|constructor]. cbn. repeat split; auto; try congruence.
      * unfold ots; cbn. rewrite HK0. cbn. right. exact CMP.
      * eauto.
    + rewrite HO0, PE0. cbn. rewrite pids_fst. auto.
    + rewrite HO0, PE0. cbn. apply incl_refl.
  - (* newer *)
    assert (LT : tlt c (kTS k0) t) by (apply tc_gt; auto).
    destruct CS as [[HK ->]|HK]; [cbn in CMP; rewrite tc_refl in CMP; discriminate|].
    assert (MO : ole c (ots s) (Some t)) by (unfold ots; rewrite HK; right; exact LT).
    unfold actionI. destruct (kSt k0) eqn:ST; rewrite ?HK0, ?uni; cbn [bind].
    + eexists. split; [reflexivity|]. unfold sendAck. rewrite uni.
      eapply (FIN _ SInvalid); cbn; auto; [apply nowr; auto; congruence|now rewrite HO0].
    + eexists. split; [reflexivity|]. unfold sendAck. rewrite uni. rewrite ST.
      eapply (FIN _ SInvalid); cbn; auto; [apply nowr; auto; congruence|now rewrite HO0].
    + (* our write is overwritten *)
      pose proof (u_st _ _ _ _ NI k0 HK) as Q. rewrite ST in Q. destruct Q as (L1 & L2 & w & W & WO).
      destruct (u_wr _ _ _ _ NI w W WO) as (k' & E1 & E2 & E3 & E4 & E5 & E6).
      assert (k' = k0) by congruence. subst k'.
      destruct (in_split _ _ W) as (pre & pst & PQ).
      assert (NOTW : forall u, In u (pre ++ pst) -> tOp u = READ).
      { intros u U. destruct (tOp u) eqn:O; auto.
        assert (Uin : In u (hPend s)) by (rewrite PQ; apply in_app_or in U; apply in_or_app; cbn; tauto).
        assert (u = w) by (eapply wr_unique; eauto). subst u. exfalso.
        rewrite PQ, map_app in IDS. cbn in IDS. apply NoDup_remove in IDS. destruct IDS as [_ N].
        apply N. rewrite <- map_app. apply in_map. auto. }
      rewrite (release_one c s0 k0 pre w pst); auto; try congruence.
      * cbn [bind].
        destruct (u_rd _ _ _ _ NI w W) as (PS & _).
        unfold closeDone. rewrite PS.
        cbn [setPend emit hKey]. rewrite HK0. cbn [bind].
        eexists. split; [reflexivity|]. unfold sendAck. rewrite uni. cbn.
        assert (ND2 : NoDup (map tId (pre ++ pst))).
        { rewrite PQ, map_app in IDS. cbn in IDS. apply NoDup_remove in IDS. rewrite map_app. tauto. }
        constructor; cbn.
        -- constructor; cbn; auto.
           ++ discriminate.
           ++ intros k [= <-]. cbn. eauto.
           ++ intros k [= <-]. cbn. congruence.
           ++ intros u U. apply (u_rd _ _ _ _ NI). rewrite PQ. apply in_app_or in U. apply in_or_app; cbn; tauto.
           ++ intros u U O. rewrite (NOTW u U) in O. discriminate.
        -- exact MO.
        -- rewrite HO0. cbn. constructor; [rewrite WO; cbn; auto|]. constructor; [|constructor].
           cbn. repeat split; auto; try congruence; eauto. unfold ots; cbn. now left.
        -- rewrite HO0. cbn. rewrite pids_fst. constructor; auto.
           rewrite PQ, map_app in IDS. cbn in IDS. apply NoDup_remove in IDS. rewrite map_app. tauto.
        -- rewrite HO0. cbn. rewrite PQ. unfold pids. rewrite !map_app. cbn.
           intros x [<-|H]; apply in_or_app; cbn; auto. apply in_app_or in H. tauto.
      * unfold matches. destruct (u_rd _ _ _ _ NI w W) as (_ & F & _).
        rewrite WO, F, L1, Nat.eqb_refl, E3, tc_refl. auto.
      * intros u U. unfold matches. rewrite (NOTW u U). auto.
    + pose proof (u_st _ _ _ _ NI k0 HK) as Q. rewrite ST in Q. contradiction.
    + eexists. split; [reflexivity|]. unfold sendAck. rewrite uni. rewrite ST.
      eapply (FIN _ SInvalidWR); cbn; auto; [apply nowr; auto; congruence|now rewrite HO0].
Qed.

(* ---- ACK ---- *)
Lemma post_refl s : NIu I K n s -> hOut s = [] -> post I K n s s [].
Proof.
  intros NI HO. constructor; auto.
  - now left.
  - rewrite HO. constructor.
  - rewrite HO. cbn. rewrite pids_fst. apply (u_nodup _ _ _ _ NI).
  - rewrite HO. cbn. apply incl_refl.
Qed.

Lemma recvAck_post s from t v tid :
  NIu I K n s -> hOut s = [] -> from <> n -> from < cRD c -> tcid t = n -> I tid t v -> K from t ->
  ole c (Some t) (ots s) ->
  exists s', recvAck c n from t tid s = HOk s' /\ post I K n s s' [].
Proof.
  intros NI HO NE FN TC IT KF OL. unfold recvAck. rewrite uni.
  assert (IDS : NoDup (map tId (hPend s))) by apply (u_nodup _ _ _ _ NI).
  destruct (hKey s) as [k|] eqn:HK.
  2:{ unfold ots in OL. rewrite HK in OL. destruct OL as [OL|OL]; [discriminate|destruct OL]. }
  destruct (tsCompare c t (kTS k)) eqn:CMP; try (eexists; split; [reflexivity|apply post_refl; auto]).
  apply tc_eq in CMP. unfold recvAck2. rewrite uni.
  pose proof (u_st _ _ _ _ NI k HK) as Q.
  destruct (kSt k) eqn:ST; try (eexists; split; [reflexivity|apply post_refl; auto]).
  - (* write *)
    destruct Q as (L1 & L2 & w & W & WO).
    destruct (u_wr _ _ _ _ NI w W WO) as (k' & E1 & _ & E3 & E4 & E5 & E6 & E7).
    assert (k' = k) by congruence. subst k'.
    assert (WT : tId w = tid). { rewrite E3, <- CMP in E5. destruct (Ifun2 _ _ _ _ _ E5 IT); auto. }
    unfold actionLA. rewrite (getTicket_in tid s w) by auto. rewrite WO, uni. cbn [negb].
    assert (NOTW : forall u, In u (hPend s) -> tId u <> tid -> tOp u = READ).
    { intros u U NEu. destruct (tOp u) eqn:O; auto. exfalso. apply NEu.
      assert (u = w) by (eapply wr_unique; eauto). congruence. }
    assert (AK : forall a, In a (tAcks (addAck from w)) -> a < cRD c /\ a <> n /\ K a (tTS w)).
    { intros a A. apply addAck_acks in A. destruct A as [->|A]; auto. rewrite E3, <- CMP. auto. }
    destruct (length (tAcks (addAck from w)) =? cRD c - 1) eqn:LA.
    + (* the last *)
      apply Nat.eqb_eq in LA.
      assert (ALL : forall a, a < cRD c -> a <> n -> K a (kTS k)).
      { intros a A A'. rewrite <- E3. apply AK.
        apply (all_acks (cRD c) n); auto.
        - apply addAck_nodup; auto.
        - intros b B. apply AK in B. tauto. }
      set (s1 := setSt SValid (modTicket tid (addAck from) s)).
      assert (IDS1 : NoDup (map tId (hPend s1))).
      { unfold s1, setSt. cbn. rewrite HK. cbn. rewrite <- (modTicket_ids tid (addAck from) s) in IDS by reflexivity. exact IDS. }
      assert (K1 : hKey s1 = Some (withSt k SValid)) by (unfold s1, setSt; cbn; rewrite HK; reflexivity).
      assert (IN1 : In (addAck from w) (hPend s1)).
      { unfold s1, setSt. cbn. rewrite HK. cbn. apply in_map_iff. exists w. rewrite WT, Nat.eqb_refl. auto. }
      unfold completeWrite. rewrite (getTicket_in tid s1 (addAck from w)) by auto. rewrite K1.
      unfold deleteTicket.
      set (s2 := setKey _ s1).
      assert (G2 : getTicket tid s2 = Some (addAck from w)).
      { apply getTicket_in; auto. }
      rewrite G2. cbn [bind].
      destruct (u_rd _ _ _ _ NI w W) as (PS & FW & _).
      unfold closeDone. replace (tPseudo (addAck from w)) with false by auto.
      set (s3 := emit (ODone _ _ _) _).
      assert (K3 : hKey s3 = Some (KM (tTS w) SValid (tFrom w) (tVal w))) by reflexivity.
      assert (O3 : hOut s3 = [ODone tid WRITE (TOk (tVal w) (tTS w))]).
      { unfold s3, s2, s1, setSt. cbn. rewrite HK. cbn. rewrite HO. cbn. rewrite WO, WT. auto. }
      assert (P3 : hPend s3 = dropId tid (hPend s)).
      { unfold s3, s2, s1, setSt. cbn. rewrite HK. cbn.
        clear. induction (hPend s) as [|x p IH]; cbn; auto.
        unfold dropId in *. cbn.
        destruct (Nat.eqb_spec (tId x) tid) as [E|E]; cbn.
        - rewrite E. rewrite Nat.eqb_refl. cbn. auto.
        - rewrite (proj2 (Nat.eqb_neq _ _) E). cbn. now rewrite IH. }
      clearbody s3.
      assert (P : post I K n s (unblockReads s3) []).
      { apply (unblock_valid s s3 (KM (tTS w) SValid (tFrom w) (tVal w)) [] [(tid, WRITE)]); auto; cbn.
        - exists tid. rewrite <- WT. auto.
        - rewrite E3. auto.
        - unfold ots. rewrite HK. cbn. rewrite E3. now left.
        - rewrite P3. intros u U. apply dropId_in in U. destruct U as [U U']. split; auto.
          apply (u_rd _ _ _ _ NI u U).
        - rewrite O3. constructor; [|constructor]. cbn. split; [|rewrite <- WT; auto].
          exists (KM (tTS w) SValid (tFrom w) (tVal w)). auto.
        - rewrite O3. reflexivity.
        - rewrite P3, pids_fst. constructor; [|apply dropId_nodup; auto].
          intros X. apply in_map_iff in X. destruct X as (u & E & U). apply dropId_in in U. tauto.
        - rewrite P3. intros x [<-|X].
          + apply in_map_iff. exists w. rewrite WT, WO. auto.
          + apply in_map_iff in X. destruct X as (u & <- & U). apply dropId_in in U.
            apply (in_map (fun t => (tId t, tOp t))). tauto. }
      eexists. split; [reflexivity|].
      destruct P as [P1 P2 P4 P5 P6]. constructor.
      * destruct P1. constructor; auto.
      * unfold ots in *; cbn in *; auto.
      * cbn. apply Forall_app. split.
        -- eapply Forall_impl; [|exact P4]. intros o. unfold outOK, validAs, ots; cbn. auto.
        -- constructor; [|constructor]. cbn. exists (tVal w). exists (KM (tTS w) SValid (tFrom w) (tVal w)).
           unfold emit; cbn.
           rewrite (unblockReads_eq s3 _ K3). { cbn. rewrite K3. repeat split; auto. rewrite E3; auto. }
           rewrite P3. apply dropId_nodup; auto.
      * cbn. rewrite dones_app. cbn. rewrite app_nil_r. auto.
      * cbn. rewrite dones_app. cbn. rewrite app_nil_r. auto.
    + (* not the last *)
      eexists. split; [reflexivity|].
      assert (PIDS : pids (hPend (modTicket tid (addAck from) s)) = pids (hPend s)).
      { unfold pids, modTicket; cbn. rewrite map_map. apply map_ext. intros u. destruct (tId u =? tid); auto. }
      constructor.
      * constructor.
        -- rewrite modTicket_ids by reflexivity. auto.
        -- cbn. congruence.
        -- cbn. apply (u_key _ _ _ _ NI).
        -- cbn. intros k' E. rewrite HK in E. injection E as <-. rewrite ST. repeat split; auto.
           exists (addAck from w). split; auto. apply in_map_iff. exists w. rewrite WT, Nat.eqb_refl. auto.
        -- intros u U. apply modTicket_in in U. destruct U as (u0 & U & ->).
           pose proof (u_rd _ _ _ _ NI u0 U). destruct (tId u0 =? tid); cbn; auto.
        -- intros u U O. apply modTicket_in in U. destruct U as (u0 & U & ->).
           destruct (Nat.eqb_spec (tId u0) tid) as [E|E].
           ++ assert (u0 = w) by (eapply nodup_tid; eauto; congruence). subst u0.
              exists k. cbn. repeat (split; [assumption|]). split; [apply addAck_nodup; auto|]. auto.
           ++ rewrite (NOTW u0 U E) in O. discriminate.
      * now left.
      * cbn. rewrite HO. constructor.
      * rewrite PIDS. cbn. rewrite HO. cbn. rewrite pids_fst. auto.
      * rewrite PIDS. cbn. rewrite HO. cbn. apply incl_refl.
  - contradiction.
  - exfalso. apply Q. congruence.
Qed.

(* ---- VALIDATE ---- *)
Lemma recvVal_post s t id v :
  NIu I K n s -> hOut s = [] -> I id t v -> ole c (Some t) (ots s) ->
  (forall a, a < cRD c -> a <> n -> K a t) ->
  exists s', recvVal c t s = HOk s' /\ post I K n s s' [].
Proof.
  intros NI HO IT OL AK. unfold recvVal.
  destruct (hKey s) as [k|] eqn:HK.
  2:{ unfold ots in OL. rewrite HK in OL. destruct OL as [OL|OL]; [discriminate|destruct OL]. }
  destruct (tsCompare c t (kTS k)) eqn:CMP; try (eexists; split; [reflexivity|apply post_refl; auto]).
  apply tc_eq in CMP. subst t.
  pose proof (u_st _ _ _ _ NI k HK) as Q.
  assert (IK : kSt k = SInvalid \/ kSt k = SInvalidWR -> exists id, I id (kTS k) (kVal k)).
  { intros _. destruct (u_key _ _ _ _ NI k HK) as [(A & B & C & _)|]; auto.
    exfalso. pose proof (Ipos C _ _ _ IT) as P. rewrite B in P. cbn in P. lia. }
  assert (UB : kSt k = SInvalid \/ kSt k = SInvalidWR -> forall s1, hKey s1 = Some (withSt k SValid) ->
     hPend s1 = hPend s -> hOut s1 = [] -> post I K n s (unblockReads s1) []).
  { intros ST s1 A B C. apply (unblock_valid s s1 (withSt k SValid) [] []); auto; cbn; auto.
    - unfold ots. rewrite HK. now left.
    - intros u U. rewrite B in U. split; [|apply (u_rd _ _ _ _ NI); auto].
      eapply nowr; eauto. intros k' E. destruct ST; congruence.
    - rewrite C. constructor.
    - rewrite C. auto.
    - rewrite B, pids_fst. apply (u_nodup _ _ _ _ NI).
    - rewrite B. apply incl_refl. }
  destruct (kSt k) eqn:ST; try (eexists; split; [reflexivity|apply post_refl; auto]).
  - eexists. split; [reflexivity|]. unfold setSt. rewrite HK. apply UB; auto.
  - contradiction.
  - assert (F : filter isWriteT (hPend s) = []).
    { apply filter_nowr. apply nowr; auto. congruence. }
    rewrite F. cbn. eexists. split; [reflexivity|].
    assert (E : setSt SValid (unblockReads s) = unblockReads (setSt SValid s)).
    { assert (ND := u_nodup _ _ _ _ NI).
      rewrite (unblockReads_eq s k HK ND).
      assert (K2 : hKey (setSt SValid s) = Some (withSt k SValid)) by (unfold setSt; rewrite HK; reflexivity).
      assert (P2 : hPend (setSt SValid s) = hPend s) by (unfold setSt; rewrite HK; reflexivity).
      assert (O2 : hOut (setSt SValid s) = hOut s) by (unfold setSt; rewrite HK; reflexivity).
      rewrite (unblockReads_eq _ _ K2) by (rewrite P2; auto).
      rewrite K2, P2, O2. unfold setSt. cbn. rewrite HK. cbn. unfold setKey; cbn. f_equal. }
    rewrite E. apply UB; auto; unfold setSt; rewrite HK; auto.
Qed.
End H.
End U.
