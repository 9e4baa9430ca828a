(** * Proofs about calls and streams: the table of calls in flight *)

From Coq Require Import ZArith NArith List Bool Lia PeanoNat.
From Verif Require Import Rpc_Model Rpc_Proofs Rpc_Proofs2 Rpc_Proofs3.
Import ListNotations.
Local Open Scope Z_scope.

(** requests that are entered in the table. *)
Definition opens (t : ctyp) : bool :=
  match t with TRPC | TReqBi | TReqDown | TUpBegin => true | _ => false end.

(** no two of them carry the same CallID. *)
Definition uniqR (l : list msg) : Prop :=
  forall p q m m', nth_error l p = Some m -> nth_error l q = Some m' ->
    opens (mTyp m) = true -> opens (mTyp m') = true -> mCall m = mCall m' -> p = q.

Definition distinctIds (s : st) : Prop := uniqR (map fst (sent s)).

Lemma uniqR_app : forall l l', uniqR (l ++ l') -> uniqR l.
Proof.
  intros l l' H p q m m' Hp Hq. apply (H p q); apply nth_app_l; assumption.
Qed.

Definition upl (t : ctyp) : bool := match t with TUpBegin | TReqBi => true | _ => false end.
Definition isPartT (t : ctyp) : bool :=
  match t with TUpBegin | TReqBi | TUpMore | TUpEnd => true | _ => false end.

Definition fl_ok (s : st) (c : Z) (cc : callctx) : Prop :=
  exists p j, nth_error (sJobs s) p = Some j /\ mCall (jReq j) = c /\
    opens (mTyp (jReq j)) = true /\ (ccCanc cc = None \/ ccCanc cc = Some p) /\
    (ccStrm cc = None \/ ccStrm cc = jStrm j).

Definition cancMsg (s : st) (c : Z) : Prop :=
  exists m, In m (map fst (sent s)) /\ mTyp m = TCancel /\ mCall m = c.

Definition overPh (x : jphase) : Prop := x = JReplied \/ x = JOver.

Record inv4 (s : st) : Prop := mkInv4 {
  f_fl : forall c cc, mget Z.eqb c (sFl s) = Some cc -> fl_ok s c cc;
  f_run : forall p j n, nth_error (sJobs s) p = Some j -> jPh j = JRun n ->
    opens (mTyp (jReq j)) = true /\
    (jCanc j = true \/
     exists cc, mget Z.eqb (mCall (jReq j)) (sFl s) = Some cc /\ ccCanc cc = Some p);
  f_canc : forall p j, nth_error (sJobs s) p = Some j -> jCanc j = true ->
    cancMsg s (mCall (jReq j)) \/ mDl (jReq j) = true \/ overPh (jPh j);
  f_lt : forall p j c, nth_error (sJobs s) p = Some j -> jStrm j = Some c ->
    (c < length (sChan s))%nat /\ upl (mTyp (jReq j)) = true;
  f_inj : forall p q j j' c, nth_error (sJobs s) p = Some j -> nth_error (sJobs s) q = Some j' ->
    jStrm j = Some c -> jStrm j' = Some c -> p = q;
  f_blk : forall oc q m, sBlk s = Some (oc, (q, m)) ->
    (mTyp m = TUpMore \/ mTyp m = TUpEnd) /\
    forall c, oc = Some c -> (c < length (sChan s))%nat /\
      forall p j, nth_error (sJobs s) p = Some j -> jStrm j = Some c -> mCall (jReq j) = mCall m }.

Lemma inv4_init : inv4 init.
Proof.
  constructor; cbn; intros; try discriminate;
  repeat match goal with
         | H : nth_error [] ?i = Some _ |- _ => destruct i; discriminate H
         end.
Qed.

(** ** The parts of a step *)

(** the fields inv4 reads. *)
Lemma inv4_irr : forall s s' l,
  sFl s' = sFl s -> sJobs s' = sJobs s -> length (sChan s') = length (sChan s) -> sBlk s' = sBlk s ->
  map fst (sent s') = map fst (sent s) ++ l -> inv4 s -> inv4 s'.
Proof.
  intros s s' l E1 E2 E3 E4 E5 [H1 H2 H3 H4 H5 H6].
  constructor; unfold fl_ok, cancMsg in *; rewrite ?E1, ?E2, ?E3, ?E4, ?E5; auto.
  intros p j Hp Hc. destruct (H3 p j Hp Hc) as [(m & K1 & K2 & K3)|K]; [left|right; exact K].
  exists m. split; [apply in_app_iff; auto|auto].
Qed.

(** a job changes phase (not to running), keeping the rest. *)
Lemma inv4_setPh : forall s p ph, (forall n, ph <> JRun n) ->
  (forall j, nth_error (sJobs s) p = Some j -> overPh (jPh j) -> overPh ph) ->
  inv4 s -> inv4 (setJ p (setJPh ph) s).
Proof.
  intros s p ph NR NO [H1 H2 H3 H4 H5 H6].
  assert (forall q j, nth_error (upd p (setJPh ph) (sJobs s)) q = Some j ->
    exists j0, nth_error (sJobs s) q = Some j0 /\ jReq j = jReq j0 /\ jStrm j = jStrm j0 /\
      jCanc j = jCanc j0 /\ (jPh j = jPh j0 \/ (q = p /\ jPh j = ph))) as HB.
  { intros q j K. rewrite nth_upd in K. destruct (Nat.eqb_spec p q) as [->|NE].
    - destruct (nth_error (sJobs s) q) as [j0|]; [|discriminate]. injection K as <-.
      exists j0. repeat split; auto.
    - exists j. repeat split; auto. }
  assert (forall q j, nth_error (sJobs s) q = Some j ->
    exists j', nth_error (upd p (setJPh ph) (sJobs s)) q = Some j' /\ jReq j' = jReq j /\ jStrm j' = jStrm j) as HF.
  { intros q j K. rewrite nth_upd, K. destruct (Nat.eqb p q); cbn; eauto. }
  constructor; cbn.
  - intros c cc K. destruct (H1 c cc K) as (q & j & L1 & L2 & L3 & L4 & L5).
    destruct (HF q j L1) as (j' & M1 & M2 & M3). exists q, j'. rewrite M2, M3. cbn. auto.
  - intros q j n K1 K2. destruct (HB q j K1) as (j0 & L1 & L2 & L3 & L4 & [L5|[-> L5]]).
    + rewrite L2, L4. rewrite L5 in K2. eauto.
    + exfalso. eapply NR. rewrite <- L5. exact K2.
  - intros q j K1 K2. destruct (HB q j K1) as (j0 & L1 & L2 & L3 & L4 & L5).
    rewrite L2. rewrite L4 in K2. destruct (H3 q j0 L1 K2) as [M|[M|M]]; auto.
    right. right. destruct L5 as [->|[-> ->]]; auto. eapply NO; eassumption.
  - intros q j c K1 K2. destruct (HB q j K1) as (j0 & L1 & L2 & L3 & L4 & L5).
    rewrite L2. rewrite L3 in K2. eauto.
  - intros q q' j j' c K1 K2 K3 K4.
    destruct (HB q j K1) as (j0 & L1 & L2 & L3 & L4 & L5).
    destruct (HB q' j' K2) as (j0' & L1' & L2' & L3' & L4' & L5').
    rewrite L3 in K3. rewrite L3' in K4. eauto.
  - intros oc q m K. destruct (H6 oc q m K) as [K1 K2]. split; [exact K1|].
    intros c E. destruct (K2 c E) as (L0 & K3). split; [exact L0|]. intros x j M1 M2.
    destruct (HB x j M1) as (j0 & L1 & L2 & L3 & _). rewrite L2. rewrite L3 in M2. eauto.
Qed.

(** a job starts running. *)
Lemma inv4_setRun : forall s p j n,
  nth_error (sJobs s) p = Some j -> opens (mTyp (jReq j)) = true ->
  (jCanc j = true \/ exists cc, mget Z.eqb (mCall (jReq j)) (sFl s) = Some cc /\ ccCanc cc = Some p) ->
  ~ overPh (jPh j) ->
  inv4 s -> inv4 (setJ p (setJPh (JRun n)) s).
Proof.
  intros s p j n Hp HO HC NV [H1 H2 H3 H4 H5 H6].
  assert (forall q x, nth_error (upd p (setJPh (JRun n)) (sJobs s)) q = Some x ->
    exists j0, nth_error (sJobs s) q = Some j0 /\ jReq x = jReq j0 /\ jStrm x = jStrm j0 /\
      jCanc x = jCanc j0 /\ ((q <> p /\ jPh x = jPh j0) \/ (q = p /\ j0 = j))) as HB.
  { intros q x K. rewrite nth_upd in K. destruct (Nat.eqb_spec p q) as [<-|NE].
    - rewrite Hp in K. injection K as <-. exists j. repeat split; auto.
    - exists x. repeat split; auto. }
  assert (forall q x, nth_error (sJobs s) q = Some x ->
    exists j', nth_error (upd p (setJPh (JRun n)) (sJobs s)) q = Some j' /\ jReq j' = jReq x /\ jStrm j' = jStrm x) as HF.
  { intros q x K. rewrite nth_upd, K. destruct (Nat.eqb p q); cbn; eauto. }
  constructor; cbn.
  - intros c cc K. destruct (H1 c cc K) as (q & x & L1 & L2 & L3 & L4 & L5).
    destruct (HF q x L1) as (j' & M1 & M2 & M3). exists q, j'. rewrite M2, M3. cbn. auto.
  - intros q x k K1 K2. destruct (HB q x K1) as (j0 & L1 & L2 & L3 & L4 & [[NE L5]|[-> ->]]).
    + rewrite L2, L4. rewrite L5 in K2. eauto.
    + rewrite L2, L4. auto.
  - intros q x K1 K2. destruct (HB q x K1) as (j0 & L1 & L2 & L3 & L4 & L5).
    rewrite L2. rewrite L4 in K2. destruct (H3 q j0 L1 K2) as [M|[M|M]]; auto.
    right. right. destruct L5 as [[NE ->]|[-> ->]]; [exact M|contradiction].
  - intros q x c K1 K2. destruct (HB q x K1) as (j0 & L1 & L2 & L3 & L4 & L5).
    rewrite L2. rewrite L3 in K2. eauto.
  - intros q q' x x' c K1 K2 K3 K4.
    destruct (HB q x K1) as (j0 & L1 & L2 & L3 & L4 & L5).
    destruct (HB q' x' K2) as (j0' & L1' & L2' & L3' & L4' & L5').
    rewrite L3 in K3. rewrite L3' in K4. eauto.
  - intros oc q m K. destruct (H6 oc q m K) as [K1 K2]. split; [exact K1|].
    intros c E. destruct (K2 c E) as (L0 & K3). split; [exact L0|]. intros y x M1 M2.
    destruct (HB y x M1) as (j0 & L1 & L2 & L3 & _). rewrite L2. rewrite L3 in M2. eauto.
Qed.

Lemma uniqJ : forall s p q j j', uniqR (map jReq (sJobs s)) ->
  nth_error (sJobs s) p = Some j -> nth_error (sJobs s) q = Some j' ->
  opens (mTyp (jReq j)) = true -> opens (mTyp (jReq j')) = true ->
  mCall (jReq j) = mCall (jReq j') -> p = q.
Proof.
  intros s p q j j' HU Hp Hq. apply (HU p q); rewrite nth_error_map.
  - rewrite Hp. reflexivity.
  - rewrite Hq. reflexivity.
Qed.

(** the context of a job is cancelled. *)
Lemma inv4_setCanc : forall s p j,
  nth_error (sJobs s) p = Some j ->
  cancMsg s (mCall (jReq j)) \/ mDl (jReq j) = true \/ overPh (jPh j) ->
  inv4 s -> inv4 (setJ p (setCanc true) s).
Proof.
  intros s p j Hp HR [H1 H2 H3 H4 H5 H6].
  assert (forall q x, nth_error (upd p (setCanc true) (sJobs s)) q = Some x ->
    exists j0, nth_error (sJobs s) q = Some j0 /\ jReq x = jReq j0 /\ jStrm x = jStrm j0 /\
      jPh x = jPh j0 /\ ((q <> p /\ jCanc x = jCanc j0) \/ (q = p /\ j0 = j /\ jCanc x = true))) as HB.
  { intros q x K. rewrite nth_upd in K. destruct (Nat.eqb_spec p q) as [<-|NE].
    - rewrite Hp in K. injection K as <-. exists j. repeat split; auto.
    - exists x. repeat split; auto. }
  assert (forall q x, nth_error (sJobs s) q = Some x ->
    exists j', nth_error (upd p (setCanc true) (sJobs s)) q = Some j' /\ jReq j' = jReq x /\ jStrm j' = jStrm x) as HF.
  { intros q x K. rewrite nth_upd, K. destruct (Nat.eqb p q); cbn; eauto. }
  constructor; cbn.
  - intros c cc K. destruct (H1 c cc K) as (q & x & L1 & L2 & L3 & L4 & L5).
    destruct (HF q x L1) as (j' & M1 & M2 & M3). exists q, j'. rewrite M2, M3. cbn. auto.
  - intros q x k K1 K2. destruct (HB q x K1) as (j0 & L1 & L2 & L3 & L4 & [[NE L5]|(-> & -> & L5)]).
    + rewrite L2, L5. rewrite L4 in K2. eauto.
    + rewrite L2. rewrite L4 in K2. destruct (H2 p j k Hp K2). auto.
  - intros q x K1 K2. destruct (HB q x K1) as (j0 & L1 & L2 & L3 & L4 & [[NE L5]|(-> & -> & L5)]).
    + rewrite L2, L4. rewrite L5 in K2. apply (H3 q j0 L1 K2).
    + rewrite L2, L4. exact HR.
  - intros q x c K1 K2. destruct (HB q x K1) as (j0 & L1 & L2 & L3 & L4 & L5).
    rewrite L2. rewrite L3 in K2. eauto.
  - intros q q' x x' c K1 K2 K3 K4.
    destruct (HB q x K1) as (j0 & L1 & L2 & L3 & L4 & L5).
    destruct (HB q' x' K2) as (j0' & L1' & L2' & L3' & L4' & L5').
    rewrite L3 in K3. rewrite L3' in K4. eauto.
  - intros oc q m K. destruct (H6 oc q m K) as [K1 K2]. split; [exact K1|].
    intros c E. destruct (K2 c E) as (L0 & K3). split; [exact L0|]. intros y x M1 M2.
    destruct (HB y x M1) as (j0 & L1 & L2 & L3 & _). rewrite L2. rewrite L3 in M2. eauto.
Qed.

(** cancelCallID. *)
Lemma inv4_cancel : forall s c, uniqR (map jReq (sJobs s)) ->
  cancMsg s c \/
  (exists p j, nth_error (sJobs s) p = Some j /\ opens (mTyp (jReq j)) = true /\
     mCall (jReq j) = c /\ jPh j = JReplied) ->
  inv4 s -> inv4 (cancelCall c s).
Proof.
  intros s c HU HR HI. unfold cancelCall.
  destruct (mget Z.eqb c (sFl s)) as [cc|] eqn:EC; [|exact HI].
  assert (forall p j, ccCanc cc = Some p -> nth_error (sJobs s) p = Some j -> mCall (jReq j) = c /\
            (cancMsg s (mCall (jReq j)) \/ mDl (jReq j) = true \/ overPh (jPh j))) as HP.
  { intros p j K1 K2. destruct (f_fl s HI c cc EC) as (q & x & L1 & L2 & L3 & L4 & L5).
    destruct L4 as [L4|L4]; [congruence|]. rewrite K1 in L4. injection L4 as <-.
    rewrite K2 in L1. injection L1 as <-. split; [exact L2|].
    destruct HR as [HR|(q & y & M1 & M2 & M3 & M4)]; [left; congruence|].
    assert (p = q) as <- by (eapply (uniqJ s); eauto; congruence).
    rewrite K2 in M1. injection M1 as <-. right. right. left. exact M4. }
  set (s1 := match ccCanc cc with Some p => setJ p (setCanc true) s | None => s end).
  assert (inv4 s1 /\ sFl s1 = sFl s) as [H1 EF].
  { subst s1. destruct (ccCanc cc) as [p|] eqn:Ecc; [|auto]. split; [|reflexivity].
    destruct (nth_error (sJobs s) p) as [j|] eqn:Ej.
    - destruct (HP p j eq_refl Ej). eapply inv4_setCanc; eauto.
    - apply (inv4_irr s _ []); auto; cbn; try (rewrite app_nil_r; reflexivity).
      clear - Ej. revert p Ej. generalize (sJobs s) as l.
      induction l as [|x r IH]; intros [|p] E; cbn in *; try discriminate; auto.
      f_equal. apply IH. exact E. }
  assert (forall p j, ccCanc cc = Some p -> nth_error (sJobs s1) p = Some j -> jCanc j = true) as HC1.
  { intros p j K1 K2. subst s1. rewrite K1 in K2. cbn in K2. rewrite nth_upd, Nat.eqb_refl in K2.
    destruct (nth_error (sJobs s) p); [|discriminate]. injection K2 as <-. reflexivity. }
  destruct H1 as [G1 G2 G3 G4 G5 G6]. constructor; cbn; auto.
  - intros c' cc' K. rewrite mget_mdel_Z in K. destruct (c =? c'); [discriminate|].
    rewrite <- EF in K. destruct (G1 c' cc' K) as (q & x & L). exists q, x. exact L.
  - intros p j n K1 K2. destruct (G2 p j n K1 K2) as [L1 [L2|(cc' & L2 & L3)]]; split; auto.
    rewrite mget_mdel_Z. destruct (Z.eqb_spec c (mCall (jReq j))) as [E|NE].
    + left. apply (HC1 p); auto. rewrite EF, <- E, EC in L2. injection L2 as <-. exact L3.
    + right. exists cc'. rewrite <- EF. auto.
Qed.

(** registerInFlightCallToCancel, for a job that is in the list. *)
Lemma inv4_flight : forall s p j canc, uniqR (map jReq (sJobs s)) ->
  nth_error (sJobs s) p = Some j -> opens (mTyp (jReq j)) = true ->
  (canc = None /\ (forall cc, mget Z.eqb (mCall (jReq j)) (sFl s) <> Some cc) \/ canc = Some p) ->
  (jPh j = JSpawn) ->
  inv4 s -> inv4 (regFlight p (jReq j) canc s).
Proof.
  intros s p j canc HU Hp HO HC HS HI. unfold regFlight.
  assert (forall q x n, nth_error (sJobs s) q = Some x -> jPh x = JRun n ->
     mCall (jReq x) = mCall (jReq j) -> False) as NR.
  { intros q x n K1 K2 K3. destruct (f_run s HI q x n K1 K2) as [K4 _].
    assert (q = p) as -> by (eapply (uniqJ s); eauto). congruence. }
  destruct (mget Z.eqb (mCall (jReq j)) (sFl s)) as [cc|] eqn:EC.
  - destruct HC as [[-> NE]| ->]; [exfalso; eapply NE; reflexivity|].
    destruct HI as [H1 H2 H3 H4 H5 H6]. constructor; cbn; auto.
    + intros c cc' K. rewrite mget_mset_Z in K.
      destruct (Z.eqb_spec (mCall (jReq j)) c) as [<-|NE]; [|exact (H1 c cc' K)].
      injection K as <-. destruct (H1 _ _ EC) as (q & x & L1 & L2 & L3 & L4 & L5).
      assert (q = p) as -> by (eapply (uniqJ s); eauto).
      exists p, x. cbn. auto 10.
    + intros q x n K1 K2. destruct (H2 q x n K1 K2) as [L1 [L2|(cc' & L2 & L3)]]; split; auto.
      right. exists cc'. rewrite mget_mset_Z.
      destruct (Z.eqb_spec (mCall (jReq j)) (mCall (jReq x))) as [E|NE]; [|auto].
      exfalso. eapply NR; eauto.
  - assert (forall canc', canc' = None \/ canc' = Some p ->
      inv4 (setSFl (mset Z.eqb (mCall (jReq j)) (mkCC canc' None) (sFl s)) s)) as HN.
    { intros canc' HC'. destruct HI as [H1 H2 H3 H4 H5 H6]. constructor; cbn; auto.
      + intros c cc' K. rewrite mget_mset_Z in K.
        destruct (Z.eqb_spec (mCall (jReq j)) c) as [<-|NE]; [|exact (H1 c cc' K)].
        injection K as <-. exists p, j. cbn. auto 10.
      + intros q x n K1 K2. destruct (H2 q x n K1 K2) as [L1 [L2|(cc' & L2 & L3)]]; split; auto.
        right. exists cc'. rewrite mget_mset_Z.
        destruct (Z.eqb_spec (mCall (jReq j)) (mCall (jReq x))) as [E|NE]; [|auto].
        exfalso. eapply NR; eauto. }
    assert (canc = None \/ canc = Some p) as HC' by tauto.
    assert (upl (mTyp (jReq j)) = true -> inv4
      (setSFl (mset Z.eqb (mCall (jReq j)) (mkCC canc (Some (length (sChan s)))) (sFl s))
        (setJ p (setStrm (Some (length (sChan s)))) (setSChan (sChan s ++ [[(p, jReq j)]]) s)))) as HB.
    2:{ destruct (mTyp (jReq j)); try (apply HN; exact HC'); apply HB; reflexivity. }
    intros HUp. destruct HI as [H1 H2 H3 H4 H5 H6].
    set (f := setStrm (Some (length (sChan s)))).
    assert (forall q x, nth_error (upd p f (sJobs s)) q = Some x ->
      exists j0, nth_error (sJobs s) q = Some j0 /\ jReq x = jReq j0 /\ jPh x = jPh j0 /\
        jCanc x = jCanc j0 /\ ((q <> p /\ x = j0) \/ (q = p /\ j0 = j /\ x = f j))) as HB.
    { intros q x K. rewrite nth_upd in K. destruct (Nat.eqb_spec p q) as [<-|NE].
      - rewrite Hp in K. injection K as <-. exists j. repeat split; auto.
      - exists x. repeat split; auto. }
    constructor; cbn.
    + intros c cc K. rewrite mget_mset_Z in K.
      destruct (Z.eqb_spec (mCall (jReq j)) c) as [<-|NE].
      * injection K as <-. exists p, (f j). cbn. rewrite nth_upd, Nat.eqb_refl, Hp. auto 10.
      * destruct (H1 c cc K) as (q & x & L1 & L2 & L3 & L4 & L5).
        destruct (Nat.eq_dec p q) as [<-|NQ]; [congruence|].
        exists q, x. cbn. rewrite nth_upd. destruct (Nat.eqb_spec p q); [contradiction|]. auto.
    + intros q x n K1 K2. destruct (HB q x K1) as (j0 & L1 & L2 & L3 & L4 & L5).
      rewrite L2, L4. rewrite L3 in K2.
      destruct (H2 q j0 n L1 K2) as [M1 [M2|(cc' & M2 & M3)]]; split; auto.
      right. exists cc'. rewrite mget_mset_Z.
      destruct (Z.eqb_spec (mCall (jReq j)) (mCall (jReq j0))) as [E|NE]; [|auto].
      exfalso. eapply NR; eauto.
    + intros q x K1 K2. destruct (HB q x K1) as (j0 & L1 & L2 & L3 & L4 & L5).
      rewrite L2, L3. rewrite L4 in K2. exact (H3 q j0 L1 K2).
    + intros q x c K1 K2. rewrite app_length. cbn.
      destruct (HB q x K1) as (j0 & L1 & L2 & L3 & L4 & [[NE ->]|(-> & -> & ->)]).
      * destruct (H4 q j0 c L1 K2). split; [lia|assumption].
      * cbn in *. injection K2 as <-. split; [lia|exact HUp].
    + intros q q' x x' c K1 K2 K3 K4.
      destruct (HB q x K1) as (j0 & L1 & L2 & L3 & L4 & [[NE ->]|(-> & -> & ->)]);
      destruct (HB q' x' K2) as (j0' & L1' & L2' & L3' & L4' & [[NE' ->]|(-> & -> & ->)]).
      * eauto.
      * cbn in K4. injection K4 as <-. destruct (H4 q j0 _ L1 K3). lia.
      * cbn in K3. injection K3 as <-. destruct (H4 q' j0' _ L1' K4). lia.
      * reflexivity.
    + intros oc q m K. destruct (H6 oc q m K) as [K1 K2]. split; [exact K1|].
      intros c E. destruct (K2 c E) as (L0 & K3). rewrite app_length. split; [lia|]. intros y x M1 M2.
      destruct (HB y x M1) as (j0 & L1 & L2 & L3 & L4 & [[NE ->]|(-> & -> & ->)]); [eauto|].
      cbn in M2. injection M2 as <-. lia.
Qed.

(** ** One step *)

Definition srvEq (a b : st) : Prop :=
  sFl a = sFl b /\ sChan a = sChan b /\ sBlk a = sBlk b /\ sCrash a = sCrash b /\ sJobs a = sJobs b.

Lemma srvEq_refl : forall s, srvEq s s.
Proof. intros s. repeat split. Qed.

Lemma tell_srv : forall cp cs m s, srvEq (tell cp cs m s) s.
Proof.
  induction cs as [|c r IH]; intros m s; cbn; [apply srvEq_refl|].
  destruct (room cp c s); [|apply IH].
  destruct (IH m (put c m s)) as (E1 & E2 & E3 & E4 & E5). repeat split; assumption.
Qed.

Lemma srv_cliOp : forall cp o s, jobOp o = false -> o <> OSrvPart -> srvEq (step cp o s) s.
Proof.
  intros cp o s H N. destruct o; try discriminate H; try contradiction; clear H N; cbn [step];
  unfold callBegin, sendCall, callReturn, callTimeout, callCancel, sendCancel, callShut, oneWay,
    newStream, beginStream, upBegin, upReg, upMore, closeStream, listen, userRecv, ret, regChans, newChan.
  all: try (unfold cWrite; dm; repeat split; fail).
  unfold cliRead. destruct (up s); [|apply srvEq_refl]. destruct (wireS s); [apply srvEq_refl|].
  destruct (wants m s); [destruct (room cp n s); repeat split|].
  cbn. destruct (mget N.eqb (mSeq m) (cOnce s)); [repeat split|].
  destruct (tell_srv cp (cListen s) m (setWireS l s)) as (E1 & E2 & E3 & E4 & E5).
  repeat split; assumption.
Qed.

Lemma sent_mono : forall cp o s, exists l, sent (step cp o s) = sent s ++ l.
Proof.
  intros cp o s. destruct (srvOp o) eqn:ES.
  - destruct (cli_srvOp cp o s ES) as (_ & _ & _ & _ & E). exists []. rewrite app_nil_r. exact E.
  - destruct o; try discriminate ES; clear ES; cbn [step];
    unfold callBegin, sendCall, callReturn, callTimeout, callCancel, sendCancel, callShut, oneWay,
      newStream, beginStream, upBegin, upReg, upMore, closeStream, ret, regChans, newChan.
    all: try (unfold cWrite; dm; cbn; first [exists []; rewrite app_nil_r; reflexivity | eexists; reflexivity]; fail).
    unfold cliRead. exists []. rewrite app_nil_r.
    destruct (up s); [|reflexivity]. destruct (wireS s); [reflexivity|].
    destruct (wants m s); [destruct (room cp n s); reflexivity|].
    cbn. destruct (mget N.eqb (mSeq m) (cOnce s)); [reflexivity|].
    destruct (tell_cli cp (cListen s) m (setWireS l s)) as (_ & _ & _ & _ & E). exact E.
Qed.

Lemma distinct_step : forall cp o s, distinctIds (step cp o s) -> distinctIds s.
Proof.
  intros cp o s H. destruct (sent_mono cp o s) as [l E]. unfold distinctIds in *.
  rewrite E, map_app in H. eapply uniqR_app. exact H.
Qed.

Lemma distinct_jobs : forall s, inv2 s -> distinctIds s -> uniqR (map jReq (sJobs s)).
Proof.
  intros s H2 H. unfold distinctIds in H. rewrite (v_fifo s H2) in H. eapply uniqR_app. exact H.
Qed.

Lemma jobs_sent : forall s p j, inv2 s -> nth_error (sJobs s) p = Some j ->
  nth_error (map fst (sent s)) p = Some (jReq j).
Proof.
  intros s p j H2 Hp. rewrite (v_fifo s H2). apply nth_app_l. rewrite nth_error_map, Hp. reflexivity.
Qed.

Lemma skel_run_opens : forall s p j n, inv2 s -> nth_error (sJobs s) p = Some j ->
  jPh j = JRun n -> opens (mTyp (jReq j)) = true.
Proof.
  intros s p j n H2 Hp HP. pose proof (v_tr s H2 p) as HT. rewrite Hp in HT.
  unfold skel in HT. rewrite HP in HT. destruct HT as [HR _].
  destruct (mTyp (jReq j)); try reflexivity; destruct HR.
Qed.

Lemma skel_rep_opens : forall s p j, inv2 s -> nth_error (sJobs s) p = Some j ->
  jPh j = JReplied -> opens (mTyp (jReq j)) = true.
Proof.
  intros s p j H2 Hp HP. pose proof (v_tr s H2 p) as HT. rewrite Hp in HT.
  unfold skel in HT. rewrite HP in HT. destruct HT as [HR _].
  destruct (mTyp (jReq j)); try reflexivity; destruct HR.
Qed.

Lemma upd_jReq : forall p f s, (forall j, jReq (f j) = jReq j) ->
  map jReq (sJobs (setJ p f s)) = map jReq (sJobs s).
Proof. intros. unfold setJ. cbn. apply map_upd_id. assumption. Qed.

Lemma flight_jReq : forall p m c s, map jReq (sJobs (regFlight p m c s)) = map jReq (sJobs s).
Proof.
  intros. unfold regFlight. dm; cbn; try reflexivity; apply map_upd_id; reflexivity.
Qed.

Lemma inv4_log : forall e s, inv4 s -> inv4 (log e s).
Proof. intros e s H. apply (inv4_irr s _ []); auto. cbn. rewrite app_nil_r. reflexivity. Qed.

Lemma inv4_sWrite : forall m e s, inv4 s -> inv4 (sWrite m e s).
Proof.
  intros m e s H. unfold sWrite. destruct (up s); [|exact H].
  apply (inv4_irr s _ []); auto. cbn. rewrite app_nil_r. reflexivity.
Qed.

Lemma sWrite_jobs : forall m e s, sJobs (sWrite m e s) = sJobs s.
Proof. intros. unfold sWrite. destruct (up s); reflexivity. Qed.

Ltac irr4 x := apply (inv4_irr x _ []); auto; cbn; try (rewrite app_nil_r; reflexivity);
             try (rewrite length_upd; reflexivity).

Lemma inv4_new : forall s m ph, inv4 s -> ph = JSpawn \/ ph = JPart ->
  inv4 (setSJobs (sJobs s ++ [mkJob m ph false None 0]) s).
Proof.
  intros s m ph [H1 H2 H3 H4 H5 H6] HP.
  assert (forall q x, nth_error (sJobs s ++ [mkJob m ph false None 0]) q = Some x ->
    nth_error (sJobs s) q = Some x \/ (x = mkJob m ph false None 0)) as HB.
  { intros q x K. apply nth_app1 in K. destruct K as [K|[_ <-]]; auto. }
  constructor; cbn.
  - intros c cc K. destruct (H1 c cc K) as (q & x & L1 & L). exists q, x. split; [|exact L].
    apply nth_app1. auto.
  - intros q x n K1 K2. apply HB in K1. destruct K1 as [K1| ->]; [eauto|].
    destruct HP as [-> | ->]; discriminate.
  - intros q x K1 K2. apply HB in K1. destruct K1 as [K1| ->]; [|discriminate]. exact (H3 q x K1 K2).
  - intros q x c K1 K2. apply HB in K1. destruct K1 as [K1| ->]; [eauto|discriminate].
  - intros q q' x x' c K1 K2 K3 K4. apply HB in K1, K2.
    destruct K1 as [K1| ->]; [|discriminate]. destruct K2 as [K2| ->]; [|discriminate]. eauto.
  - intros oc q x K. destruct (H6 oc q x K) as [K1 K2]. split; [exact K1|]. intros c E.
    destruct (K2 c E) as [L1 L2]. split; [exact L1|]. intros y z M1 M2. apply HB in M1.
    destruct M1 as [M1| ->]; [eauto|discriminate].
Qed.

Lemma inv4_step : forall cp o s, inv2 s -> distinctIds (step cp o s) -> inv4 s -> inv4 (step cp o s).
Proof.
  intros cp o s H2 HD HI.
  pose proof (distinct_step cp o s HD) as HD0.
  pose proof (distinct_jobs s H2 HD0) as HU.
  destruct (jobOp o) eqn:EO.
  2:{ destruct (same2_step cp o s EO) as [E1 _ _ (l & E4 & _) _ _].
      assert (o <> OSrvPart \/ o = OSrvPart) as [NE| ->]
        by (destruct o; (left; discriminate) || (right; reflexivity)).
      - destruct (srv_cliOp cp o s EO NE) as (F1 & F2 & F3 & F4 & F5).
        apply (inv4_irr s _ l); auto. rewrite F2. reflexivity.
      - cbn [step] in *. unfold srvPart in *. destruct (srvUp s); [|exact HI].
        destruct (sBlk s) as [[[c|] e]|] eqn:EB; try exact HI.
        destruct (nth_error (sChan s) c) as [q|]; [|exact HI].
        destruct (Nat.ltb (length q) (capStrm cp)); [|exact HI].
        destruct HI as [G1 G2 G3 G4 G5 G6]. constructor; cbn; auto; rewrite ?length_upd; auto.
        discriminate. }
  assert (H2' : inv2 (step cp o s)) by (apply inv2_step; exact H2).
  pose proof (distinct_jobs _ H2' HD) as HU'. clear HD.
  destruct o; try discriminate EO; clear EO; cbn [step] in *.
  - (* OSrvRead *)
    unfold srvRead in *. destruct (srvUp s); [|exact HI].
    destruct (sBlk s) eqn:EB; [exact HI|]. destruct (wireC s) as [|m r] eqn:EW; [exact HI|].
    assert (inv4 (setWireC r s)) as H0 by (irr4 s).
    pose proof (inv4_new _ m JSpawn H0 (or_introl eq_refl)) as HS.
    pose proof (inv4_new _ m JPart H0 (or_intror eq_refl)) as HP.
    cbn [sJobs setWireC] in HS, HP.
    assert (uniqR (map jReq (sJobs s ++ [mkJob m JSpawn false None 0])) -> upl (mTyp m) = true ->
      inv4 (regFlight (length (sJobs s)) m None
        (setSJobs (sJobs s ++ [mkJob m JSpawn false None 0]) (setWireC r s)))) as HF.
    { intros HN HUp.
      assert (nth_error (sJobs s ++ [mkJob m JSpawn false None 0]) (length (sJobs s)) =
              Some (mkJob m JSpawn false None 0)) as HL by (apply nth_app1; auto).
      apply (inv4_flight (setSJobs (sJobs s ++ [mkJob m JSpawn false None 0]) (setWireC r s))
               (length (sJobs s)) (mkJob m JSpawn false None 0) None); auto.
      - cbn. destruct (mTyp m); try discriminate; reflexivity.
      - left. split; [reflexivity|]. intros cc K. cbn in K.
        destruct (f_fl s HI _ _ K) as (q & x & L1 & L2 & L3 & _).
        assert (q = length (sJobs s)) as ->.
        { apply (HN q (length (sJobs s)) (jReq x) m).
          - rewrite nth_error_map. rewrite (nth_app_l _ _ _ _ L1). reflexivity.
          - rewrite nth_error_map, HL. reflexivity.
          - exact L3.
          - destruct (mTyp m); try discriminate; reflexivity.
          - exact L2. }
        apply nth_some_lt in L1. lia. }
    destruct (mTyp m) eqn:ET; try exact HS.
    + apply HF; [|reflexivity]. rewrite flight_jReq in HU'. exact HU'.
    + cbn in *. destruct (mget Z.eqb (mCall m) (sFl s)) as [cc|] eqn:EC; [|exact HP].
      destruct HP as [G1 G2 G3 G4 G5 G6]. constructor; cbn in *; auto.
      intros oc q x K. injection K as <- <- <-. split; [auto|]. intros c E.
      destruct (f_fl s HI _ _ EC) as (y & z & L1 & L2 & L3 & L4 & [L5|L5]); [congruence|].
      rewrite E in L5. split; [eapply (f_lt s HI); eauto|]. intros a b M1 M2.
      assert (y = a) as <-.
      { apply (G5 y a z b c); auto. apply nth_app1. auto. }
      assert (z = b) as <-.
      { assert (nth_error (sJobs s ++ [mkJob m JPart false None 0]) y = Some z) as M3 by (apply nth_app1; auto).
        congruence. }
      exact L2.
    + cbn in *. destruct (mget Z.eqb (mCall m) (sFl s)) as [cc|] eqn:EC; [|exact HP].
      destruct HP as [G1 G2 G3 G4 G5 G6]. constructor; cbn in *; auto.
      intros oc q x K. injection K as <- <- <-. split; [auto|]. intros c E.
      destruct (f_fl s HI _ _ EC) as (y & z & L1 & L2 & L3 & L4 & [L5|L5]); [congruence|].
      rewrite E in L5. split; [eapply (f_lt s HI); eauto|]. intros a b M1 M2.
      assert (y = a) as <-.
      { apply (G5 y a z b c); auto. apply nth_app1. auto. }
      assert (z = b) as <-.
      { assert (nth_error (sJobs s ++ [mkJob m JPart false None 0]) y = Some z) as M3 by (apply nth_app1; auto).
        congruence. }
      exact L2.
    + apply HF; [|reflexivity]. rewrite flight_jReq in HU'. exact HU'.
  - (* OStart *)
    unfold jobStart in *. destruct (sCrash s); [exact HI|].
    destruct (nth_error (sJobs s) p) as [j|] eqn:Ej; [|exact HI].
    destruct (jPh j) eqn:Ep; try exact HI.
    assert (inv4 (respondErr p (jReq j) s)) as HE.
    { unfold respondErr. apply inv4_setPh; [discriminate| |apply inv4_sWrite; exact HI].
      intros x K1 K2. rewrite sWrite_jobs, Ej in K1. injection K1 as <-. rewrite Ep in K2. destruct K2; discriminate. }
    assert (forall s1, inv4 s1 -> nth_error (sJobs s1) p = Some j -> inv4 (setJ p (setJPh JOver) s1)) as HO.
    { intros s1 K1 K2. apply inv4_setPh; [discriminate| |exact K1].
      intros x K3 K4. right. reflexivity. }
    assert (forall k, opens (mTyp (jReq j)) = true ->
      inv4 (if isReg k (mSvc (jReq j)) s
            then log (ERun p (jReq j)) (setJ p (setJPh (JRun 0)) (regFlight p (jReq j) (Some p) s))
            else respondErr p (jReq j) s)) as HG.
    { intros k HO'. destruct (isReg k (mSvc (jReq j)) s); [|exact HE]. apply inv4_log.
      pose proof (inv4_flight s p j (Some p) HU Ej HO' (or_intror eq_refl) Ep HI) as HF.
      destruct (soft_flight p (jReq j) (Some p) s) as (S1 & _).
      specialize (S1 p). rewrite Ej in S1.
      destruct (nth_error (sJobs (regFlight p (jReq j) (Some p) s)) p) as [j'|] eqn:Ej'; [|destruct S1].
      destruct S1 as [S1 S2]. apply (inv4_setRun _ p j'); auto.
      - rewrite S1. exact HO'.
      - right. rewrite S1. unfold regFlight.
        destruct (mget Z.eqb (mCall (jReq j)) (sFl s)) as [cc|] eqn:EC.
        + exists (mkCC (Some p) (ccStrm cc)). cbn. rewrite mget_mset_Z, Z.eqb_refl. auto.
        + destruct (mTyp (jReq j)); try (exists (mkCC (Some p) None); cbn; rewrite mget_mset_Z, Z.eqb_refl; auto; fail);
          (exists (mkCC (Some p) (Some (length (sChan s)))); cbn; rewrite mget_mset_Z, Z.eqb_refl; auto).
      - rewrite S2, Ep. intros [K|K]; discriminate. }
    destruct (mTyp (jReq j)) eqn:ET; try (apply HG; reflexivity); try (apply HO; assumption).
    + destruct (isReg R1 (mSvc (jReq j)) s); [|exact HE]. apply inv4_log. apply HO; assumption.
    + apply inv4_setPh; [discriminate|right; reflexivity|].
      apply inv4_cancel; auto. left. exists (jReq j). split; [|auto].
      apply (nth_error_In _ p). apply jobs_sent; assumption.
  - (* OErrClose *)
    unfold jobErrClose. destruct (sCrash s); [exact HI|].
    destruct (nth_error (sJobs s) p) as [j|] eqn:Ej; [|exact HI].
    destruct (jPh j) eqn:Ep; try exact HI.
    apply inv4_setPh; [discriminate|right; reflexivity|]. irr4 s.
  - (* OUpPart *)
    unfold jobUpPart. destruct (sCrash s); [exact HI|].
    destruct (nth_error (sJobs s) p) as [j|] eqn:Ej; [|exact HI].
    destruct (jPh j) eqn:Ep; try exact HI.
    destruct (mTyp (jReq j)) eqn:ET; try exact HI.
    destruct (jStrm j) as [c|]; [|exact HI].
    destruct (nth_error (sChan s) c) as [[|[q m] t]|]; try exact HI.
    set (s1 := setSChan _ s).
    assert (inv4 s1) as H1 by (subst s1; irr4 s).
    assert (inv4 (crash s1)) as HC by (irr4 s1).
    destruct (Nat.eqb n 0 && negb (Nat.eqb q p)); [exact HC|].
    destruct (negb (mPart m =? Z.of_nat n)); [exact HC|].
    destruct (Nat.ltb 0 n && negb (mCall m =? mCall (jReq j))); [exact HC|].
    assert (forall b e, inv4 (setJ p (setJPh (JRet b e))
              (log (EClean p) (log (EPart p m (isEnd (mTyp m))) s1)))) as HR.
    { intros b e. apply inv4_setPh; [discriminate| |apply inv4_log, inv4_log; exact H1].
      intros x K1 K2. cbn in K1. rewrite Ej in K1. injection K1 as <-. rewrite Ep in K2. destruct K2; discriminate. }
    destruct (negb (err =? 0)); [apply HR|]. destruct (isEnd (mTyp m)) eqn:EE; [apply HR|].
    destruct (f_run s HI p j n Ej Ep) as [K1 K2].
    apply (inv4_setRun _ p j); auto; [|apply inv4_log; exact H1].
    rewrite Ep. intros [K|K]; discriminate.
  - (* OUpCanc *)
    unfold jobUpCanc. destruct (sCrash s); [exact HI|].
    destruct (nth_error (sJobs s) p) as [j|] eqn:Ej; [|exact HI].
    destruct (jPh j) eqn:Ep; try exact HI.
    destruct (mTyp (jReq j)) eqn:ET; try exact HI.
    destruct (jCanc j); [|exact HI].
    apply inv4_setPh; [discriminate| |apply inv4_log; exact HI].
    intros x K1 K2. cbn in K1. rewrite Ej in K1. injection K1 as <-. rewrite Ep in K2. destruct K2; discriminate.
  - (* OBiRecv *)
    unfold jobBiRecv. destruct (sCrash s); [exact HI|].
    destruct (nth_error (sJobs s) p) as [j|] eqn:Ej; [|exact HI].
    destruct (jPh j) eqn:Ep; try exact HI.
    destruct (mTyp (jReq j)) eqn:ET; try exact HI.
    destruct (jStrm j) as [c|]; [|exact HI].
    destruct (nth_error (sChan s) c) as [[|[q m] t]|]; try exact HI.
    irr4 s.
  - (* ODown *)
    unfold jobDown. destruct (sCrash s); [exact HI|].
    destruct (nth_error (sJobs s) p) as [j|] eqn:Ej; [|exact HI].
    cbv zeta. set (m := mkMsg _ _ _ _ _ _ _ _).
    assert (inv4 (setJ p (setJNext (jNext j + 1)) (sWrite m (EDown p m) s))) as HG.
    { pose proof (inv4_sWrite m (EDown p m) s HI) as [G1 G2 G3 G4 G5 G6].
      rewrite sWrite_jobs in *.
      set (s1 := sWrite m (EDown p m) s) in *.
      assert (sJobs s1 = sJobs s) as ES by apply sWrite_jobs.
      set (f := setJNext (jNext j + 1)).
      assert (forall q x, nth_error (upd p f (sJobs s)) q = Some x ->
        exists j0, nth_error (sJobs s) q = Some j0 /\ jReq x = jReq j0 /\ jPh x = jPh j0 /\
          jCanc x = jCanc j0 /\ jStrm x = jStrm j0) as HB.
      { intros q x K. rewrite nth_upd in K. destruct (Nat.eqb p q).
        - destruct (nth_error (sJobs s) q) as [j0|]; [|discriminate]. injection K as <-. exists j0. auto.
        - exists x. auto. }
      constructor; cbn; rewrite ?ES.
      - intros c cc K. destruct (G1 c cc K) as (q & x & L1 & L2 & L3 & L4 & L5).
        rewrite ES in L1.
        exists q. cbn. rewrite ES, nth_upd, L1. destruct (Nat.eqb p q); [exists (f x)|exists x]; auto 10.
      - intros q x n K1 K2. destruct (HB q x K1) as (j0 & L1 & L2 & L3 & L4 & L5).
        rewrite L2, L4. rewrite L3 in K2. eauto.
      - intros q x K1 K2. destruct (HB q x K1) as (j0 & L1 & L2 & L3 & L4 & L5).
        rewrite L2, L3. rewrite L4 in K2. exact (G3 q j0 L1 K2).
      - intros q x c K1 K2. destruct (HB q x K1) as (j0 & L1 & L2 & L3 & L4 & L5).
        rewrite L2. rewrite L5 in K2. eauto.
      - intros q q' x x' c K1 K2 K3 K4.
        destruct (HB q x K1) as (j0 & L1 & L2 & L3 & L4 & L5).
        destruct (HB q' x' K2) as (j0' & L1' & L2' & L3' & L4' & L5').
        rewrite L5 in K3. rewrite L5' in K4. eauto.
      - intros oc q x K. destruct (G6 oc q x K) as [K1 K2]. split; [exact K1|].
        intros c E. destruct (K2 c E) as (L0 & K3). split; [exact L0|]. intros y z M1 M2.
        destruct (HB y z M1) as (j0 & L1 & L2 & L3 & L4 & L5). rewrite L2. rewrite L5 in M2. eauto. }
    destruct (jPh j); try exact HI. destruct (mTyp (jReq j)); try exact HI; exact HG.
  - (* OEnd *)
    unfold jobEnd. destruct (sCrash s); [exact HI|].
    destruct (nth_error (sJobs s) p) as [j|] eqn:Ej; [|exact HI].
    destruct (jPh j) eqn:Ep; try exact HI.
    assert (inv4 (log (EEnd p body err) (setJ p (setJPh (JRet body err)) s))) as HG.
    { apply inv4_log, inv4_setPh; [discriminate| |exact HI].
      intros x K1 K2. rewrite Ej in K1. injection K1 as <-. rewrite Ep in K2. destruct K2; discriminate. }
    destruct (mTyp (jReq j)); try exact HI; exact HG.
  - (* OReply *)
    unfold jobReply. destruct (sCrash s); [exact HI|].
    destruct (nth_error (sJobs s) p) as [j|] eqn:Ej; [|exact HI].
    destruct (jPh j) eqn:Ep; try exact HI.
    apply inv4_setPh; [discriminate|left; reflexivity|]. apply inv4_sWrite. exact HI.
  - (* OClean *)
    unfold jobClean. destruct (sCrash s); [exact HI|].
    destruct (nth_error (sJobs s) p) as [j|] eqn:Ej; [|exact HI].
    destruct (jPh j) eqn:Ep; try exact HI.
    apply inv4_setPh; [discriminate|right; reflexivity|].
    apply inv4_cancel; auto. right. exists p, j. repeat split; auto.
    exact (skel_rep_opens s p j H2 Ej Ep).
  - (* ODeadline *)
    unfold jobDeadline. destruct (sCrash s); [exact HI|].
    destruct (nth_error (sJobs s) p) as [j|] eqn:Ej; [|exact HI].
    destruct (jPh j) eqn:Ep; try exact HI. destruct (mDl (jReq j)) eqn:ED; [|exact HI].
    apply (inv4_setCanc s p j); auto.
  - (* OPush *)
    unfold push. destruct (sCrash s); [exact HI|]. apply inv4_sWrite. exact HI.
Qed.

Lemma run_snoc_ind : forall (P : list op -> Prop),
  P [] -> (forall os o, P os -> P (os ++ [o])) -> forall os, P os.
Proof.
  intros P H0 HS os. rewrite <- (rev_involutive os). induction (rev os) as [|o r IH]; cbn; auto.
Qed.

Lemma run_snoc : forall cp os o s, run cp (os ++ [o]) s = step cp o (run cp os s).
Proof. intros. rewrite run_app. reflexivity. Qed.

Lemma inv4_run : forall cp os, distinctIds (run cp os init) -> inv4 (run cp os init).
Proof.
  intros cp os. apply (run_snoc_ind (fun os => distinctIds (run cp os init) -> inv4 (run cp os init))).
  - intros _. apply inv4_init.
  - intros l o IH HD. rewrite run_snoc in *. apply inv4_step; auto.
    + apply inv_run.
    + apply IH. eapply distinct_step. exact HD.
Qed.
