(* Calm runs with either way of sending ACKs: no node panics, and once every
   INV has been delivered all nodes hold the same value. *)

From Coq Require Import List Arith Bool Lia.
Import ListNotations.
From Verif Require Import Herm_Spec Herm_Model Herm_Order Herm_Lin Herm_Tick Herm_Uni Herm_Glob Herm_All Herm_AllG Herm_Bc.

Section C.
Variable c : cfg.
Hypothesis inj : hashInj c.

(* what an accepted write does, whichever way ACKs go *)
Lemma write_shape n id v s : hOut s = [] -> quietKey s -> ~ In id (map tId (hPend s)) ->
  exists s' t os, writeReq c n id v s = HOk s' /\ hOut s' = OIssue id t v :: os /\ Forall notIssue os /\
    olt c (ots s) (Some t) /\ tcid t = n /\ ots s' = Some t /\
    ((cRD c = 1 /\ hKey s = None /\ hKey s' = Some (KM t SValid n v) /\ hPend s' = hPend s) \/
     (1 <= tver t /\ hKey s' = Some (KM t SWrite n v) /\
      hPend s' = hPend s ++ [inPQ true (newTicket id WRITE v t n false true)] /\ os = [OBcast (MInv n t v id)])).
Proof.
  intros HO QK FR. unfold writeReq.
  assert (CONT : forall k s0, hPend s0 = hPend s -> hOut s0 = [] ->
    (hKey s = None \/ hKey s = Some k) ->
    let t1 := TS (S (tver (kTS k))) n in
    exists s' t os,
      bind (recordPending (newTicket id WRITE v t1 n false true)
              (emit (OIssue id t1 v) (setKey (KM t1 SWrite n v) s0)))
        (fun s2 => HOk (emit (OBcast (MInv n t1 v id)) s2)) = HOk s' /\
      hOut s' = OIssue id t v :: os /\ Forall notIssue os /\
      olt c (ots s) (Some t) /\ tcid t = n /\ ots s' = Some t /\
      ((cRD c = 1 /\ hKey s = None /\ hKey s' = Some (KM t SValid n v) /\ hPend s' = hPend s) \/
       (1 <= tver t /\ hKey s' = Some (KM t SWrite n v) /\
        hPend s' = hPend s ++ [inPQ true (newTicket id WRITE v t n false true)] /\ os = [OBcast (MInv n t v id)]))).
  { intros k s0 P0 O0 HK t1.
    rewrite recordPending_fresh by (cbn; rewrite P0; auto). cbn [bind].
    eexists. exists t1. eexists. split; [reflexivity|]. cbn [hOut emit setPend setKey hKey hPend]. rewrite O0, P0.
    split; [reflexivity|]. split; [repeat constructor|].
    split; [unfold ots; destruct HK as [-> | ->]; cbn; auto; apply tlt_succ|].
    split; [reflexivity|]. split; [reflexivity|]. right. cbn. repeat split; auto. lia. }
  destruct (hKey s) as [k|] eqn:HK.
  - unfold quietKey in QK. rewrite HK in QK.
    destruct QK as [E|E]; rewrite E; apply (CONT k s); auto.
  - destruct (Nat.eqb_spec (cRD c) 1) as [E|NE].
    + eexists. exists (TS 0 n). eexists. split; [reflexivity|]. cbn. rewrite HO. cbn. split; [reflexivity|].
      split; [repeat constructor|]. split; [unfold ots; rewrite HK; exact I|]. split; [reflexivity|]. split; [reflexivity|].
      left. auto.
    + cbn [kSt]. apply (CONT (KM (TS 0 n) SInvalid n v) (setKey (KM (TS 0 n) SInvalid n v) s)); auto.
Qed.

(* the handler an event runs, and where *)
Definition hfun (g : gst) (e : event) : option (nat * (nst -> hres)) :=
  match e with
  | EWrite n v => Some (n, writeReq c n (gTid g) v)
  | ERead n w => Some (n, readReq c n (gTid g) w)
  | EDeliver i => match nth_error (gNet g) i with Some (n, m) => Some (n, handle c n m) | None => None end
  | EDeadline n id st => Some (n, deadline c n id st)
  end.

Definition elog (g : gst) (e : event) : list lev :=
  match e with
  | EWrite n v => [LInv (gTid g) n (OpW v)]
  | ERead n w => [LInv (gTid g) n OpR]
  | _ => []
  end.
Definition etid (g : gst) (e : event) : nat :=
  match e with EWrite _ _ | ERead _ _ => S (gTid g) | _ => gTid g end.
Definition edel (g : gst) (e : event) : list nat :=
  match e with EDeliver i => gDel g ++ [i] | _ => gDel g end.

Lemma step_split g e :
  step c g e = g \/
  exists n h, hfun g e = Some (n, h) /\ n < cRD c /\
    forall s', h (gN g n) = HOk s' ->
    step c g e = GS (upd (gN g) n (NS (hKey s') (hPend s') [])) (gNet g ++ flat_map (outNet c n) (hOut s'))
                    (etid g e) ((gLog g ++ elog g e) ++ flat_map outLog (hOut s')) (gDead g) (edel g e).
Proof.
  destruct e as [n v|n w|i|n id st]; cbn [step hfun elog etid edel].
  - destruct (n <? cRD c) eqn:L; cbn [andb]; auto. destruct (gDead g n); cbn [negb]; auto. apply Nat.ltb_lt in L.
    right. exists n. eexists. split; [reflexivity|]. split; auto. intros s' H. unfold runAt. cbn [gN]. rewrite H. reflexivity.
  - destruct (n <? cRD c) eqn:L; cbn [andb]; auto. destruct (gDead g n); cbn [negb]; auto. apply Nat.ltb_lt in L.
    right. exists n. eexists. split; [reflexivity|]. split; auto. intros s' H. unfold runAt. cbn [gN]. rewrite H. reflexivity.
  - destruct (nth_error (gNet g) i) as [(n & m)|]; auto.
    destruct (n <? cRD c) eqn:L; cbn [andb]; auto. destruct (gDead g n); cbn [negb]; auto. apply Nat.ltb_lt in L.
    right. exists n. eexists. split; [reflexivity|]. split; auto. intros s' H. unfold runAt. cbn [gN]. rewrite H. rewrite app_nil_r. reflexivity.
  - destruct (n <? cRD c) eqn:L; cbn [andb]; auto. destruct (gDead g n); cbn [negb]; auto. apply Nat.ltb_lt in L.
    right. exists n. eexists. split; [reflexivity|]. split; auto. intros s' H. unfold runAt. rewrite H. rewrite app_nil_r. reflexivity.
Qed.

(* every write is issued, announced to every node, and adopted where the
   announcement has been delivered *)
Record GX (g : gst) : Prop := {
  x_acc : forall id m v, In (LInv id m (OpW v)) (gLog g) -> exists t, Iss (gLog g) id t v;
  x_inv : forall id t v, Iss (gLog g) id t v -> exists m, In (LInv id m (OpW v)) (gLog g);
  x_own : forall id t v, Iss (gLog g) id t v -> tcid t < cRD c /\ Kn c (gN g) (tcid t) t;
  x_if2 : forall id t v id' v', Iss (gLog g) id t v -> Iss (gLog g) id' t v' -> id = id' /\ v = v';
  x_bc : cRD c <> 1 -> forall id t v d, Iss (gLog g) id t v -> d < cRD c -> d <> tcid t ->
    exists i, nth_error (gNet g) i = Some (d, MInv (tcid t) t v id);
  x_del : forall i d f t v id, In i (gDel g) -> nth_error (gNet g) i = Some (d, MInv f t v id) -> d < cRD c ->
    Kn c (gN g) d t;
  x_rng : forall i, In i (gDel g) -> i < length (gNet g) }.

Lemma GX_init : GX ginit.
Proof. constructor; cbn; try contradiction. Qed.

Lemma gx_step g e n h s' : GX g -> GA g -> hfun g e = Some (n, h) -> n < cRD c -> h (gN g n) = HOk s' ->
  noDeadline e = true -> quietNow g e = true ->
  step c g e = GS (upd (gN g) n (NS (hKey s') (hPend s') [])) (gNet g ++ flat_map (outNet c n) (hOut s'))
                    (etid g e) ((gLog g ++ elog g e) ++ flat_map outLog (hOut s')) (gDead g) (edel g e) ->
  ole c (ots (gN g n)) (ots s') ->
  ((forall m v, e <> EWrite m v) -> Forall notIssue (hOut s')) ->
  GX (step c g e).
Proof.
  intros G GAg HF nN HS ND Q SE MO NI. rewrite SE. clear SE.
  set (N' := upd (gN g) n (NS (hKey s') (hPend s') [])).
  assert (Nn : N' n = NS (hKey s') (hPend s') []) by (unfold N', upd; now rewrite Nat.eqb_refl).
  assert (No : forall m, m <> n -> N' m = gN g m).
  { intros m H. unfold N', upd. now rewrite (proj2 (Nat.eqb_neq _ _) H). }
  assert (On : ots (N' n) = ots s') by (rewrite Nn; reflexivity).
  assert (KM : forall a t, Kn c (gN g) a t -> Kn c N' a t).
  { intros a t H. unfold Kn in *. destruct (Nat.eq_dec a n) as [->|NE].
    - rewrite On. eapply ole_trans; eauto.
    - now rewrite No. }
  assert (FRESH : forall id t v, Iss (gLog g) id t v -> id < gTid g).
  { intros id t v H. apply (a_ids _ GAg) in H. exact H. }
  (* what is issued *)
  assert (ISS : exists new, (forall id t v, Iss ((gLog g ++ elog g e) ++ flat_map outLog (hOut s')) id t v <->
      Iss (gLog g) id t v \/ new id t v) /\
      (forall id t v, new id t v -> id = gTid g /\ e = EWrite n v /\ tcid t = n /\ ots s' = Some t /\ olt c (ots (gN g n)) (Some t) /\
         (cRD c <> 1 -> In (OBcast (MInv n t v id)) (hOut s'))) /\
      (forall m v, e = EWrite m v -> exists t, new (gTid g) t v)).
  { destruct e as [m v|m w|i|m id st]; [| | |discriminate].
    - cbn in HF. injection HF as -> <-.
      assert (FR : ~ In (gTid g) (map tId (hPend (gN g n)))).
      { intros H. apply in_map_iff in H. destruct H as (t & E & T). pose proof (r_b _ _ _ _ (a_node _ GAg n) t T) as X. cbn in X. lia. }
      assert (QK : quietKey (gN g n)).
      { unfold quietKey. cbn in Q. destruct (hKey (gN g n)) as [k|]; auto. destruct (kSt k); try discriminate; auto. }
      destruct (write_shape n (gTid g) v (gN g n) (a_out _ GAg n) QK FR) as (s1 & t & os & A & B & C & D & E & F & H).
      rewrite A in HS. injection HS as <-.
      exists (fun i x y => i = gTid g /\ x = t /\ y = v). split; [|split].
      + intros i x y. rewrite B. cbn [flat_map outLog].
        assert (X : flat_map outLog (hOut s1) = [LIss (gTid g) t v] ++ flat_map outLog os) by (rewrite B; reflexivity).
        unfold Iss. rewrite app_assoc. fold (Iss (((gLog g ++ elog g (EWrite n v)) ++ [LIss (gTid g) t v]) ++ flat_map outLog os) i x y).
        rewrite (iss_out _ os C). unfold Iss. cbn [elog]. rewrite !in_app_iff. cbn. split.
        * intros [[Z|[Z|[]]]|[Z|[]]]; auto; try discriminate. injection Z as <- <- <-. auto.
        * intros [Z|(-> & -> & ->)]; auto.
      + intros i x y (-> & -> & ->). repeat split; auto.
        intros NE. rewrite B. destruct H as [(X & _)|(_ & _ & _ & ->)]; [contradiction|]. right. left. reflexivity.
      + intros m v' [= <- <-]. exists t. auto.
    - exists (fun _ _ _ => False). split; [|split]; [|tauto|discriminate].
      intros. rewrite (iss_out _ (hOut s')) by (apply NI; discriminate).
      unfold Iss. cbn [elog]. rewrite in_app_iff. cbn. intuition discriminate.
    - exists (fun _ _ _ => False). split; [|split]; [|tauto|discriminate].
      intros. rewrite (iss_out _ (hOut s')) by (apply NI; discriminate).
      unfold Iss. cbn [elog]. rewrite app_nil_r. tauto. }
  destruct ISS as (new & I1 & I2 & I3).
  assert (INVS : forall id m o, In (LInv id m o) ((gLog g ++ elog g e) ++ flat_map outLog (hOut s')) <->
     In (LInv id m o) (gLog g ++ elog g e)).
  { intros. rewrite (in_app_iff (gLog g ++ elog g e)). split; auto. intros [H|H]; auto. exfalso.
    apply in_flat_map in H. destruct H as (x & _ & H). destruct x as [| |? [] []|]; cbn in H; try tauto; destruct H as [H|[]]; discriminate. }
  assert (NOLD : forall id t v, Iss (gLog g) id t v -> forall id' v', new id' t v' -> False).
  { intros id t v H id' v' H'. destruct (I2 _ _ _ H') as (_ & _ & TC & _ & LT & _).
    destruct (x_own _ G _ _ _ H) as (_ & KT). rewrite TC in KT. apply (ole_not_olt c inj _ _ KT LT). }
  constructor; cbn [gLog gN gNet gTid gDead gDel].
  - intros id m v H. rewrite INVS in H. apply in_app_or in H. destruct H as [H|H].
    + destruct (x_acc _ G _ _ _ H) as [t X]. exists t. apply I1. auto.
    + destruct e as [m' v'|m' w|i|m' id' st]; cbn in H; try contradiction; destruct H as [H|[]]; [|discriminate].
      injection H as <- <- <-. destruct (I3 m' v' eq_refl) as [t X]. exists t. apply I1. auto.
  - intros id t v H. apply I1 in H. destruct H as [H|H].
    + destruct (x_inv _ G _ _ _ H) as [m X]. exists m. rewrite INVS. apply in_or_app. auto.
    + destruct (I2 _ _ _ H) as (-> & -> & _). exists n. rewrite INVS. apply in_or_app. right. left. reflexivity.
  - intros id t v H. apply I1 in H. destruct H as [H|H].
    + destruct (x_own _ G _ _ _ H) as [A B]. split; auto.
    + destruct (I2 _ _ _ H) as (_ & _ & TC & OS & _). rewrite TC. split; auto. unfold Kn. rewrite On, OS. now left.
  - intros id t v id' v' A B. apply I1 in A. apply I1 in B. destruct A as [A|A], B as [B|B].
    + eapply (x_if2 _ G); eauto.
    + exfalso. eapply NOLD; eauto.
    + exfalso. eapply NOLD; eauto.
    + destruct (I2 _ _ _ A) as (-> & E1 & _). destruct (I2 _ _ _ B) as (-> & E2 & _). split; auto. congruence.
  - intros NE id t v d H L X. apply I1 in H. destruct H as [H|H].
    + destruct (x_bc _ G NE _ _ _ _ H L X) as [i Y]. exists i. rewrite nth_error_app1; auto.
      apply nth_error_Some. congruence.
    + destruct (I2 _ _ _ H) as (_ & _ & TC & _ & _ & BB). specialize (BB NE).
      assert (Z : In (d, MInv (tcid t) t v id) (flat_map (outNet c n) (hOut s'))).
      { apply in_flat_map. eexists. split; [exact BB|]. cbn. apply in_map_iff. exists d. rewrite TC. split; auto.
        unfold others. apply filter_In. split; [apply in_seq; lia|]. apply negb_true_iff, Nat.eqb_neq. congruence. }
      apply In_nth_error in Z. destruct Z as [j Z]. exists (length (gNet g) + j).
      rewrite nth_error_app2 by lia. now replace (length (gNet g) + j - length (gNet g)) with j by lia.
  - intros i d f t v id H NT L.
    assert (OLD : In i (gDel g) -> Kn c N' d t).
    { intros HI. apply KM. eapply (x_del _ G); eauto.
      rewrite nth_error_app1 in NT by (apply (x_rng _ G); auto). exact NT. }
    destruct e as [m' v'|m' w|i'|m' id' st]; cbn [edel] in H; auto.
    apply in_app_or in H. destruct H as [H|[<-|[]]]; auto.
    cbn in HF. destruct (nth_error (gNet g) i') as [(n' & m)|] eqn:NT'; [|discriminate]. injection HF as -> <-.
    rewrite nth_error_app1 in NT by (apply nth_error_Some; congruence).
    rewrite NT' in NT. injection NT as -> ->. cbn in HS. apply recvInv_adopt in HS.
    unfold Kn. rewrite On. exact HS.
  - intros i H. rewrite app_length.
    destruct e as [m' v'|m' w|i'|m' id' st]; cbn [edel] in H; [| | |discriminate];
      try (pose proof (x_rng _ G _ H); lia).
    apply in_app_or in H. destruct H as [H|[<-|[]]]; [pose proof (x_rng _ G _ H); lia|].
    cbn in HF. destruct (nth_error (gNet g) i') as [(n' & m)|] eqn:NT'; [|discriminate].
    assert (i' < length (gNet g)) by (apply nth_error_Some; congruence). lia.
Qed.

(* what the nodes hold, and that they agree *)
Definition KEYOK (g : gst) : Prop := forall n k, n < cRD c -> hKey (gN g n) = Some k ->
  (cRD c <> 1 /\ kTS k = TS 0 n /\ kVal k = None) \/ exists id, Iss (gLog g) id (kTS k) (kVal k).
Definition POS (g : gst) : Prop := cRD c <> 1 -> forall id t v, Iss (gLog g) id t v -> 1 <= tver t.

Lemma agree g : GX g -> KEYOK g -> POS g -> 1 <= cRD c ->
  (forall i d f t v id, nth_error (gNet g) i = Some (d, MInv f t v id) -> In i (gDel g)) ->
  exists v, (forall n, n < cRD c -> valueAt (gN g n) = v) /\
    ((exists id m, In (HInv id m (OpW v)) (hist_of (gLog g))) \/
     (v = None /\ forall id m w, ~ In (HInv id m (OpW w)) (hist_of (gLog g)))).
Proof.
  intros G KO PO N1 DEL.
  assert (ALL : forall id t v d, Iss (gLog g) id t v -> d < cRD c -> Kn c (gN g) d t).
  { intros id t v d H L. destruct (x_own _ G _ _ _ H) as [A B].
    destruct (Nat.eq_dec d (tcid t)) as [->|NE]; auto.
    destruct (Nat.eq_dec (cRD c) 1) as [E|E]; [exfalso; lia|].
    destruct (x_bc _ G E _ _ _ _ H L NE) as [i X]. eapply (x_del _ G); eauto. }
  assert (NODE : forall id t v n, Iss (gLog g) id t v -> n < cRD c ->
    exists k id', hKey (gN g n) = Some k /\ Iss (gLog g) id' (kTS k) (kVal k)).
  { intros id t v n H L. pose proof (ALL _ _ _ _ H L) as K. unfold Kn, ots in K.
    destruct (hKey (gN g n)) as [k|] eqn:HK.
    - destruct (KO n k L HK) as [(E & T & V)|(id' & X)]; [|exists k, id'; auto]. exfalso.
      specialize (PO E _ _ _ H). apply ole_some in K. rewrite T in K. destruct K as [-> | K]; [cbn in PO; lia|].
      unfold tlt, tsCompare in K. cbn [tver tcid] in K.
      destruct (Nat.ltb_spec (tver t) 0); [lia|]. destruct (Nat.ltb_spec 0 (tver t)); [discriminate|lia].
    - destruct K as [K|K]; [discriminate|destruct K]. }
  destruct (hKey (gN g 0)) as [k0|] eqn:H0.
  - destruct (KO 0 k0 N1 H0) as [(E & T & V)|(id0 & I0)].
    + (* nothing issued *)
      assert (NO : forall id t v, ~ Iss (gLog g) id t v).
      { intros id t v H. pose proof (ALL _ _ _ _ H N1) as K. unfold Kn, ots in K. rewrite H0 in K.
        specialize (PO E _ _ _ H). apply ole_some in K. rewrite T in K. destruct K as [-> | K]; [cbn in PO; lia|].
        unfold tlt, tsCompare in K. cbn [tver tcid] in K.
        destruct (Nat.ltb_spec (tver t) 0); [lia|]. destruct (Nat.ltb_spec 0 (tver t)); [discriminate|lia]. }
      exists None. split.
      * intros n L. unfold valueAt. destruct (hKey (gN g n)) as [k|] eqn:HK; auto.
        destruct (KO n k L HK) as [(_ & _ & X)|(i & X)]; auto. exfalso. eapply NO; eauto.
      * right. split; auto. intros id m w H. apply hist_in in H. destruct H as (e & H & X).
        destruct e as [? ? ?|? ? ?|? ? ?|? []]; cbn in X; try discriminate; injection X as -> -> ->.
        destruct (x_acc _ G _ _ _ H) as [t Y]. eapply NO; eauto.
    + exists (kVal k0). split.
      * intros n L. destruct (NODE _ _ _ n I0 L) as (k & id & HK & IK). unfold valueAt. rewrite HK.
        pose proof (ALL _ _ _ _ I0 L) as K1. pose proof (ALL _ _ _ _ IK N1) as K2. unfold Kn, ots in K1, K2.
        rewrite HK in K1. rewrite H0 in K2. apply ole_some in K1. apply ole_some in K2.
        pose proof (tle_antisym c inj _ _ K1 K2) as E. rewrite E in I0.
        apply (x_if2 _ G _ _ _ _ _ IK I0).
      * left. destruct (x_inv _ G _ _ _ I0) as [m X]. exists id0, m. apply hist_in. exists (LInv id0 m (OpW (kVal k0))). auto.
  - assert (NO : forall id t v, ~ Iss (gLog g) id t v).
    { intros id t v H. destruct (NODE _ _ _ 0 H N1) as (k & _ & X & _). congruence. }
    exists None. split.
    + intros n L. unfold valueAt. destruct (hKey (gN g n)) as [k|] eqn:HK; auto.
      destruct (KO n k L HK) as [(_ & _ & X)|(i & X)]; auto. exfalso. eapply NO; eauto.
    + right. split; auto. intros id m w H. apply hist_in in H. destruct H as (e & H & X).
      destruct e as [? ? ?|? ? ?|? ? ?|? []]; cbn in X; try discriminate; injection X as -> -> ->.
      destruct (x_acc _ G _ _ _ H) as [t Y]. eapply NO; eauto.
Qed.

(* ---- ACKs to the coordinator only ---- *)
Section U.
Hypothesis uni : cBcast c = false.

Lemma uni_handler g e n h : GI c g -> GA g -> hfun g e = Some (n, h) -> n < cRD c ->
  noDeadline e = true -> quietNow g e = true ->
  exists s', h (gN g n) = HOk s' /\ ole c (ots (gN g n)) (ots s') /\
    ((forall m v, e <> EWrite m v) -> Forall notIssue (hOut s')).
Proof.
  intros G A HF L ND Q. destruct (g_node _ _ G n L) as (_ & HO & NI).
  assert (FR : ~ In (gTid g) (map tId (hPend (gN g n)))).
  { intros H. apply in_map_iff in H. destruct H as (t & E & T). pose proof (r_b _ _ _ _ (a_node _ A n) t T) as X. cbn in X. lia. }
  destruct e as [m v|m w|i|m id st]; [| | |discriminate]; cbn in HF.
  - injection HF as -> <-.
    assert (QK : quietKey (gN g n)).
    { unfold quietKey. cbn in Q. destruct (hKey (gN g n)) as [k|]; auto. destruct (kSt k); try discriminate; auto. }
    destruct (write_shape n (gTid g) v (gN g n) HO QK FR) as (s' & t & os & X & _ & _ & LT & _ & OS & _).
    exists s'. split; auto. split; [rewrite OS; right; exact LT|]. intros H. exfalso. now apply (H n v).
  - injection HF as -> <-.
    assert (NX : forall x v, ~ Iss (gLog g) (gTid g) x v).
    { intros x v H. apply (a_ids _ A) in H. cbn in H. lia. }
    destruct (readReq_post c (Iss (gLog g)) (Kn c (gN g)) n (gN g n) (gTid g) w NI HO FR NX) as (s' & X & P).
    exists s'. split; auto. split; [apply (p_mono _ _ _ _ _ _ _ P)|]. intros _.
    eapply outOK_notIssue. apply (p_out _ _ _ _ _ _ _ P).
  - destruct (nth_error (gNet g) i) as [(n' & m)|] eqn:NT; [|discriminate]. injection HF as -> <-.
    pose proof (g_log _ _ G) as Lg.
    assert (MO : msgOK c (gLog g) (gN g) (n, m)).
    { pose proof (g_net _ _ G) as F. rewrite Forall_forall in F. apply F. eapply nth_error_In; eauto. }
    assert (H1 : exists s', handle c n m (gN g n) = HOk s' /\ post c (Iss (gLog g)) (Kn c (gN g)) n (gN g n) s' []).
    { destruct m as [f t v tid|f t tid|f t tid]; cbn in MO; cbn [handle].
      - destruct MO as (M1 & M2 & M3 & M4). apply recvInv_post; auto.
        intros; eapply iss_fun2; eauto.
      - destruct MO as ((v & M1) & M2 & M3 & M4 & M5).
        eapply recvAck_post; eauto; try congruence.
        + intros; eapply iss_fun2; eauto.
        + destruct (g_iss _ _ G _ _ _ M1) as (_ & KT & _). rewrite <- M2 in KT. exact KT.
      - destruct MO as ((j & v & M1) & M2). eapply recvVal_post; eauto.
        + intros X j' t' v' H. apply (g_iss _ _ G _ _ _ H); auto.
        + apply M2; auto. }
    destruct H1 as (s' & X & P). exists s'. split; auto. split; [apply (p_mono _ _ _ _ _ _ _ P)|]. intros _.
    eapply outOK_notIssue. apply (p_out _ _ _ _ _ _ _ P).
Qed.

Lemma uni_gx es : forall g, GI c g -> GA g -> GX g -> calm c g es = true -> GI c (run c g es) /\ GX (run c g es).
Proof.
  induction es as [|e es IH]; cbn [run calm]; intros g G A X H; auto.
  apply andb_true_iff in H. destruct H as [H H3]. apply andb_true_iff in H. destruct H as [H1 H2].
  apply IH; auto.
  - apply step_ok; auto.
  - now apply stepA.
  - destruct (step_split g e) as [-> | (n & h & HF & L & SE)]; auto.
    destruct (uni_handler g e n h G A HF L H1 H2) as (s' & E & MO & NI).
    eapply gx_step; eauto.
Qed.

Theorem uni_converge es : calm c ginit es = true -> 1 <= cRD c ->
  let g := run c ginit es in
  (forall i d f t v id, nth_error (gNet g) i = Some (d, MInv f t v id) -> In i (gDel g)) ->
  exists v, (forall n, n < cRD c -> valueAt (gN g n) = v) /\
    ((exists id m, In (HInv id m (OpW v)) (hist c es)) \/
     (v = None /\ forall id m w, ~ In (HInv id m (OpW w)) (hist c es))).
Proof.
  intros H N1 g DEL. destruct (uni_gx es ginit (GI_init c) GA_init GX_init H) as [G X].
  apply agree; auto.
  - intros n k L HK. destruct (g_node _ _ G n L) as (_ & _ & NI).
    destruct (u_key _ _ _ _ _ NI k HK) as [(_ & A & B & C)|B]; auto.
  - intros E id t v HI. apply (g_iss _ _ G _ _ _ HI); auto.
Qed.
(* a node's timestamp never goes back *)
Lemma uni_mono es : forall g, GI c g -> GA g -> calm c g es = true -> forall n, n < cRD c ->
  ole c (ots (gN g n)) (ots (gN (run c g es) n)).
Proof.
  induction es as [|e es IH]; cbn [run calm]; intros g G A H n L; [now left|].
  apply andb_true_iff in H. destruct H as [H H3]. apply andb_true_iff in H. destruct H as [H1 H2].
  eapply ole_trans; [exact inj| |apply IH; auto; [apply step_ok; auto|now apply stepA]].
  destruct (step_split g e) as [-> | (m & h & HF & Lm & SE)]; [now left|].
  destruct (uni_handler g e m h G A HF Lm H1 H2) as (s' & E & MO & NI).
  rewrite (SE _ E). cbn [gN]. unfold upd. destruct (Nat.eqb_spec n m) as [->|NE]; [exact MO|now left].
Qed.
End U.

(* ---- ACKs to everybody ---- *)
Section B.
Hypothesis bc : cBcast c = true.
Hypothesis three : 3 <= cRD c.

Definition msgB (l : list lev) (dm : nat * msg) : Prop :=
  match dm with
  | (d, MInv f t v id) => d <> f /\ tcid t = f /\ Iss l id t v
  | (d, MAck f t id) => d <> f /\ exists v, Iss l id t v
  | (d, MVal _ _ _) => False
  end.

Record GB (g : gst) : Prop := {
  gb_node : forall n, n < cRD c -> gDead g n = false /\ NIb (Iss (gLog g)) n (gN g n);
  gb_net : Forall (msgB (gLog g)) (gNet g);
  gb_pos : forall id t v, Iss (gLog g) id t v -> 1 <= tver t;
  gb_if1 : forall id t v t' v', Iss (gLog g) id t v -> Iss (gLog g) id t' v' -> t = t' /\ v = v' }.

Lemma GB_init : GB ginit.
Proof.
  constructor; cbn; try contradiction; auto. intros n L. split; auto.
  constructor; cbn; try constructor; try discriminate; try contradiction.
Qed.

Lemma NIb_ext (I1 I2 : nat -> ts -> option nat -> Prop) n s s' : NIb I1 n s ->
  (forall i t v, I1 i t v -> I2 i t v) ->
  (forall t, In t (hPend s) -> tOp t = READ -> forall x v, ~ I2 (tId t) x v) ->
  hKey s' = hKey s -> hPend s' = hPend s -> NIb I2 n s'.
Proof.
  intros [A B C] H1 H2 EK EP.
  assert (OWN : forall t, ownOK I1 n s t -> ownOK I2 n s' t).
  { intros t (X1 & X2 & X3 & k & X4 & X5 & X6 & X7 & X8). repeat split; auto. exists k. rewrite EK. repeat split; auto. }
  constructor.
  - now rewrite EP.
  - intros k HK. rewrite EK in HK. specialize (B k HK). unfold stOK in *. rewrite EP.
    destruct (kSt k).
    + destruct B; eauto.
    + destruct B as [?|[i X]]; eauto.
    + destruct B as (X1 & X2 & [i X3] & w & X4 & X5). repeat split; eauto.
    + contradiction.
    + destruct B as ([i X] & Y). split; eauto.
  - intros t T. rewrite EP in T. destruct (C t T) as [[(X1 & X2 & X3)|(X1 & X2 & X3 & v & X4 & X5)]|X]; auto.
    + left. left. repeat split; auto.
    + left. right. repeat split; auto. exists v. auto.
Qed.

Lemma write_b (I I' : nat -> ts -> option nat -> Prop) n id v t s s' : NIb I n s -> quietKey s ->
  ~ In id (map tId (hPend s)) ->
  hKey s' = Some (KM t SWrite n v) -> hPend s' = hPend s ++ [inPQ true (newTicket id WRITE v t n false true)] ->
  tcid t = n -> (forall i x w, I i x w -> I' i x w) -> I' id t v ->
  (forall u, In u (hPend s) -> tOp u = READ -> forall x w, ~ I' (tId u) x w) ->
  NIb I' n s'.
Proof.
  intros NI QK FR HK HP TC MI IN RD.
  set (w := inPQ true (newTicket id WRITE v t n false true)) in *.
  assert (OW : ownOK I' n s' w).
  { repeat split; auto. exists (KM t SWrite n v). cbn. auto. }
  assert (NW : forall k, hKey s = Some k -> kSt k <> SWrite).
  { intros k E. unfold quietKey in QK. rewrite E in QK. destruct QK as [-> | ->]; discriminate. }
  constructor.
  - rewrite HP, map_app. cbn. rewrite <- (rev_involutive (map tId (hPend s) ++ [id])). apply NoDup_rev.
    rewrite rev_app_distr. cbn. constructor; [rewrite <- in_rev; exact FR|]. apply NoDup_rev. apply (b_nodup _ _ _ NI).
  - intros k E. rewrite HK in E. injection E as <-. unfold stOK. cbn. repeat split; eauto.
    exists w. split; auto. rewrite HP. apply in_or_app. right. left. reflexivity.
  - intros u U. rewrite HP in U. apply in_app_or in U. destruct U as [U|[<-|[]]]; auto. left.
    destruct (noown _ _ _ NW NI u U) as [(X1 & X2 & X3)|(X1 & X2 & X3 & y & X4 & X5)].
    + left. repeat split; auto.
    + right. repeat split; auto. exists y. auto.
Qed.

Lemma outB_notIssue I n os : Forall (outB I n) os -> Forall notIssue os.
Proof. apply Forall_impl. intros [| | |]; cbn; auto. Qed.

Lemma bc_handler g e n h : GB g -> GA g -> GX g -> hfun g e = Some (n, h) -> n < cRD c ->
  noDeadline e = true -> quietNow g e = true ->
  exists s', h (gN g n) = HOk s' /\ ole c (ots (gN g n)) (ots s') /\
    ((forall m v, e <> EWrite m v) -> pB c (Iss (gLog g)) n (gN g n) s').
Proof.
  intros G A X HF L ND Q. destruct (gb_node _ G n L) as (_ & NI). pose proof (a_out _ A n) as HO.
  assert (FR : ~ In (gTid g) (map tId (hPend (gN g n)))).
  { intros H. apply in_map_iff in H. destruct H as (t & E & T). pose proof (r_b _ _ _ _ (a_node _ A n) t T) as Y. cbn in Y. lia. }
  destruct e as [m v|m w|i|m id st]; [| | |discriminate]; cbn in HF.
  - injection HF as -> <-.
    assert (QK : quietKey (gN g n)).
    { unfold quietKey. cbn in Q. destruct (hKey (gN g n)) as [k|]; auto. destruct (kSt k); try discriminate; auto. }
    destruct (write_shape n (gTid g) v (gN g n) HO QK FR) as (s' & t & os & Y & _ & _ & LT & _ & OS & _).
    exists s'. split; auto. split; [rewrite OS; right; exact LT|]. intros H. exfalso. now apply (H n v).
  - injection HF as -> <-.
    assert (NX : forall x v, ~ Iss (gLog g) (gTid g) x v).
    { intros x v H. apply (a_ids _ A) in H. cbn in H. lia. }
    destruct (read_b c (Iss (gLog g)) n (gN g n) (gTid g) w NI HO FR NX) as (s' & Y & P).
    exists s'. split; auto. split; [apply (pb_mono _ _ _ _ _ P)|auto].
  - destruct (nth_error (gNet g) i) as [(n' & m)|] eqn:NT; [|discriminate]. injection HF as -> <-.
    assert (MO : msgB (gLog g) (n, m)).
    { pose proof (gb_net _ G) as F. rewrite Forall_forall in F. apply F. eapply nth_error_In; eauto. }
    assert (H1 : exists s', handle c n m (gN g n) = HOk s' /\ pB c (Iss (gLog g)) n (gN g n) s').
    { destruct m as [f t v tid|f t tid|f t tid]; cbn in MO; cbn [handle].
      - destruct MO as (M1 & M2 & M3). apply inv_b; auto. apply (gb_if1 _ G). apply (x_if2 _ X).
      - destruct MO as (M1 & v & M2). eapply ack_b; eauto.
        + apply (gb_if1 _ G). + apply (x_if2 _ X). + apply (gb_pos _ G).
      - contradiction. }
    destruct H1 as (s' & Y & P). exists s'. split; auto. split; [apply (pb_mono _ _ _ _ _ P)|auto].
Qed.

Lemma gb_step g e n h s' : GB g -> GA g -> GX g -> hfun g e = Some (n, h) -> n < cRD c -> h (gN g n) = HOk s' ->
  noDeadline e = true -> quietNow g e = true ->
  step c g e = GS (upd (gN g) n (NS (hKey s') (hPend s') [])) (gNet g ++ flat_map (outNet c n) (hOut s'))
                    (etid g e) ((gLog g ++ elog g e) ++ flat_map outLog (hOut s')) (gDead g) (edel g e) ->
  ((forall m v, e <> EWrite m v) -> pB c (Iss (gLog g)) n (gN g n) s') ->
  GB (step c g e).
Proof.
  intros G A X HF nN HS ND Q SE PP. rewrite SE. clear SE.
  set (l' := (gLog g ++ elog g e) ++ flat_map outLog (hOut s')).
  assert (CORE : exists new : nat -> ts -> option nat -> Prop,
     (forall i t v, Iss l' i t v <-> Iss (gLog g) i t v \/ new i t v) /\
     (forall i t v, new i t v -> i = gTid g /\ 1 <= tver t) /\
     (forall i t v t' v', new i t v -> new i t' v' -> t = t' /\ v = v') /\
     NIb (Iss l') n (NS (hKey s') (hPend s') []) /\
     Forall (msgB l') (flat_map (outNet c n) (hOut s'))).
  { assert (RDS : forall m t, In t (hPend (gN g m)) -> m < cRD c -> tOp t = READ -> forall x v, ~ Iss (gLog g) (tId t) x v).
    { intros m t T L O x v. destruct (gb_node _ G m L) as (_ & NI).
      destruct (b_tk _ _ _ NI t T) as [[(_ & _ & Y)|(Y & _)]|(Y & _)]; auto; congruence. }
    assert (OTH : (forall m v, e <> EWrite m v) -> exists new : nat -> ts -> option nat -> Prop,
     (forall i t v, Iss l' i t v <-> Iss (gLog g) i t v \/ new i t v) /\
     (forall i t v, new i t v -> i = gTid g /\ 1 <= tver t) /\
     (forall i t v t' v', new i t v -> new i t' v' -> t = t' /\ v = v') /\
     NIb (Iss l') n (NS (hKey s') (hPend s') []) /\
     Forall (msgB l') (flat_map (outNet c n) (hOut s'))).
    { intros NW. specialize (PP NW). exists (fun _ _ _ => False).
      assert (EQ : forall i t v, Iss l' i t v <-> Iss (gLog g) i t v).
      { intros. unfold l'. rewrite (iss_out _ (hOut s')) by (eapply outB_notIssue; apply (pb_out _ _ _ _ _ PP)).
        unfold Iss. rewrite in_app_iff. split; auto. intros [H|H]; auto.
        destruct e as [m0 v0|m0 w0|i0|m0 id0 st0]; cbn in H; try contradiction; destruct H as [H|[]]; discriminate. }
      split; [intros; rewrite EQ; tauto|]. split; [tauto|]. split; [tauto|]. split.
      - eapply NIb_ext; [apply (pb_ni _ _ _ _ _ PP)| | | |]; auto.
        + intros. now apply EQ.
        + intros t T O x v H. apply EQ in H. revert H.
          destruct (b_tk _ _ _ (pb_ni _ _ _ _ _ PP) t T) as [[(_ & _ & Y)|(Y & _)]|(Y & _)]; [apply Y|congruence|congruence].
      - apply Forall_forall. intros (d & m) H. apply in_flat_map in H. destruct H as (o & O & H).
        pose proof (pb_out _ _ _ _ _ PP) as F. rewrite Forall_forall in F. apply F in O.
        destruct o as [[]|? ?| |]; cbn in O, H; try contradiction.
        apply in_map_iff in H. destruct H as (d' & [= -> <-] & D). apply filter_In in D. destruct D as [_ D].
        apply negb_true_iff, Nat.eqb_neq in D. destruct O as (-> & v & O). cbn. split; auto. exists v. now apply EQ. }
    destruct e as [m v|m w|i|m id st]; [|apply OTH; discriminate|apply OTH; discriminate|discriminate].
    clear OTH. cbn in HF. injection HF as -> <-. destruct (gb_node _ G n nN) as (_ & NI).
    assert (FR : ~ In (gTid g) (map tId (hPend (gN g n)))).
    { intros H. apply in_map_iff in H. destruct H as (t & E & T). pose proof (r_b _ _ _ _ (a_node _ A n) t T) as Y. cbn in Y. lia. }
    assert (QK : quietKey (gN g n)).
    { unfold quietKey. cbn in Q. destruct (hKey (gN g n)) as [k|]; auto. destruct (kSt k); try discriminate; auto. }
    destruct (write_shape n (gTid g) v (gN g n) (a_out _ A n) QK FR) as (s1 & t & os & E1 & B & C & D & E & F & H).
    rewrite E1 in HS. injection HS as <-.
    destruct H as [(H & _)|(VP & HK & HP & ->)]; [lia|].
    assert (EQ : forall i x y, Iss l' i x y <-> Iss (gLog g) i x y \/ (i = gTid g /\ x = t /\ y = v)).
    { intros i x y. unfold l', Iss. rewrite B. cbn [flat_map outLog elog app]. rewrite !in_app_iff. cbn. split.
      - intros [[Z|[Z|[]]]|[Z|[]]]; auto; try discriminate. injection Z as <- <- <-. auto.
      - intros [Z|(-> & -> & ->)]; auto. }
    exists (fun i x y => i = gTid g /\ x = t /\ y = v). split; auto. split; [|split; [|split]].
    - intros i x y (-> & -> & ->). auto.
    - intros i x y x' y' (-> & -> & ->) (_ & -> & ->). auto.
    - eapply (write_b (Iss (gLog g)) (Iss l') n (gTid g) v t (gN g n)); eauto.
      + intros. apply EQ. auto.
      + apply EQ. auto.
      + intros u U O x w H. apply EQ in H. destruct H as [H|(H & _)].
        * eapply RDS; eauto.
        * apply FR. rewrite <- H. now apply in_map.
    - rewrite B. cbn [flat_map outNet app]. rewrite app_nil_r. apply Forall_forall. intros (d & m) H.
      apply in_map_iff in H. destruct H as (d' & [= -> <-] & D'). apply filter_In in D'. destruct D' as [_ D'].
      apply negb_true_iff, Nat.eqb_neq in D'. cbn. repeat split; auto. apply EQ. auto. }
  destruct CORE as (new & EQ & N1 & N2 & NN & NM).
  constructor; cbn [gLog gN gNet gTid gDead gDel]; fold l'.
  - intros m L. destruct (gb_node _ G m L) as (Dm & NI). split; auto. unfold upd.
    destruct (Nat.eqb_spec m n) as [->|NE]; auto.
    eapply NIb_ext; [exact NI| | | |]; auto.
    + intros. apply EQ. auto.
    + intros t T O x v H. apply EQ in H. destruct H as [H|H].
      * destruct (b_tk _ _ _ NI t T) as [[(_ & _ & Y)|(Y & _)]|(Y & _)]; [|congruence|congruence]. apply (Y _ _ H).
      * apply N1 in H. destruct H as (H & _). pose proof (r_b _ _ _ _ (a_node _ A m) t T) as Y. cbn in Y. lia.
  - apply Forall_app. split; auto. eapply Forall_impl; [|apply (gb_net _ G)].
    intros (d & [f t v id|f t id|f t id]); cbn; auto.
    + intros (Y1 & Y2 & Y3). repeat split; auto. apply EQ. auto.
    + intros (Y1 & v & Y3). split; auto. exists v. apply EQ. auto.
  - intros id t v H. apply EQ in H. destruct H as [H|H]; [apply (gb_pos _ G _ _ _ H)|apply (N1 _ _ _ H)].
  - intros id t v t' v' H H'. apply EQ in H. apply EQ in H'.
    destruct H as [H|H], H' as [H'|H'].
    + eapply (gb_if1 _ G); eauto.
    + exfalso. apply N1 in H'. apply (a_ids _ A) in H. cbn in H. lia.
    + exfalso. apply N1 in H. apply (a_ids _ A) in H'. cbn in H'. lia.
    + eapply N2; eauto.
Qed.

Lemma bc_run es : forall g, GB g -> GA g -> GX g -> calm c g es = true -> GB (run c g es) /\ GX (run c g es).
Proof.
  induction es as [|e es IH]; cbn [run calm]; intros g G A X H; auto.
  apply andb_true_iff in H. destruct H as [H H3]. apply andb_true_iff in H. destruct H as [H1 H2].
  assert (ST : GB (step c g e) /\ GX (step c g e)).
  { destruct (step_split g e) as [-> | (n & h & HF & L & SE)]; auto.
    destruct (bc_handler g e n h G A X HF L H1 H2) as (s' & E & MO & PP).
    split.
    - eapply gb_step; eauto.
    - eapply gx_step; eauto. intros NW. eapply outB_notIssue. apply (pb_out _ _ _ _ _ (PP NW)). }
  destruct ST. apply IH; auto. now apply stepA.
Qed.

Theorem bc_no_panic es n : calm c ginit es = true -> n < cRD c -> gDead (run c ginit es) n = false.
Proof.
  intros H L. destruct (bc_run es ginit GB_init GA_init GX_init H) as [G _]. apply (gb_node _ G n L).
Qed.

Theorem bc_converge es : calm c ginit es = true ->
  let g := run c ginit es in
  (forall i d f t v id, nth_error (gNet g) i = Some (d, MInv f t v id) -> In i (gDel g)) ->
  exists v, (forall n, n < cRD c -> valueAt (gN g n) = v) /\
    ((exists id m, In (HInv id m (OpW v)) (hist c es)) \/
     (v = None /\ forall id m w, ~ In (HInv id m (OpW w)) (hist c es))).
Proof.
  intros H g DEL. destruct (bc_run es ginit GB_init GA_init GX_init H) as [G X].
  apply agree; auto; [| |lia].
  - intros n k L HK. destruct (gb_node _ G n L) as (_ & NI).
    pose proof (b_st _ _ _ NI k HK) as S. unfold stOK in S. destruct (kSt k).
    + auto.
    + destruct S as [(A & B)|B]; auto. left. repeat split; auto. lia.
    + right. apply S.
    + contradiction.
    + right. apply S.
  - intros E id t v HI. apply (gb_pos _ G _ _ _ HI).
Qed.
(* a node's timestamp never goes back *)
Lemma bc_mono es : forall g, GB g -> GA g -> GX g -> calm c g es = true -> forall n, n < cRD c ->
  ole c (ots (gN g n)) (ots (gN (run c g es) n)).
Proof.
  induction es as [|e es IH]; cbn [run calm]; intros g G A X H n L; [now left|].
  apply andb_true_iff in H. destruct H as [H H3]. apply andb_true_iff in H. destruct H as [H1 H2].
  pose proof (bc_run [e] g G A X) as ST. cbn [run calm] in ST. rewrite H1, H2 in ST. destruct (ST eq_refl) as [ST1 ST2].
  eapply ole_trans; [exact inj| |apply IH; auto; now apply stepA].
  destruct (step_split g e) as [-> | (m & h & HF & Lm & SE)]; [now left|].
  destruct (bc_handler g e m h G A X HF Lm H1 H2) as (s' & E & MO & NI).
  rewrite (SE _ E). cbn [gN]. unfold upd. destruct (Nat.eqb_spec n m) as [->|NE]; [exact MO|now left].
Qed.
End B.
End C.
