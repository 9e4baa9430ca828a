(** * Circuits: opening, sending, the read loop; every run *)

From Coq Require Import ZArith List Bool Arith Lia.
From Verif Require Import Ckt_Model Ckt_Spec Ckt_View Ckt_Proofs Ckt_Proofs2 Ckt_Proofs3.
Import ListNotations.

(** ** The user's ops *)

Lemma items_none : forall k c p l, (forall m, In m l -> mCid m <> c) -> items k c p l = [].
Proof.
  intros k c p l H. induction l as [|m l IH]; [reflexivity|]. rewrite items_cons.
  unfold isFor. destruct (Nat.eqb_spec (mCid m) c) as [E|E]; [exfalso; apply (H m); [left; reflexivity|exact E]|].
  cbn [andb app]. apply IH. intros m' H'. apply H. right. exact H'.
Qed.

Lemma badStart_none : forall c l, (forall m, In m l -> mCid m <> c) -> existsb (badStart c) l = false.
Proof.
  intros c l H. induction l as [|m l IH]; [reflexivity|]. cbn.
  rewrite IH by (intros m' H'; apply H; right; exact H').
  unfold badStart. destruct (Nat.eqb_spec (mCid m) c) as [E|E]; [exfalso; apply (H m); [left; reflexivity|exact E]|].
  reflexivity.
Qed.

(** nothing of a circuit that is still to be made is anywhere. *)
Lemma fresh_parts : forall s c x k p, sinv s -> length (ckts s) <= c ->
  inPump k c (pPump (getP p s)) = [] /\ items k c p (inQ k (getP p s)) = [] /\
  (forall t, inBoot x k c (boot t s) = []) /\ (forall t, items k c p (wire t s) = []).
Proof.
  intros s c x k p S L. split; [|split; [|split]].
  - pose proof (iDeliv _ S p) as D. destruct (pPump (getP p s)) as [|a d late|a d|]; cbn; auto;
      destruct (iMap _ S p a D) as [LA _]; (destruct (Nat.eqb_spec a c); [lia|]); rewrite andb_false_r; reflexivity.
  - apply items_none. intros m H E. destruct (iIn _ S _ _ _ H) as [LA _]. lia.
  - intro t. destruct (boot t s) as [[a d]|] eqn:E; [|reflexivity]. cbn.
    destruct (iBoot _ S t a d E) as [LA _]. destruct (Nat.eqb_spec a c); [lia|]. rewrite andb_false_r. reflexivity.
  - intro t. apply items_none. intros m H E. destruct (iWire _ S _ _ H) as [LA _]. lia.
Qed.

Lemma openC_good : forall p q tf s, sinv s -> good s (openC p q tf s).
Proof.
  intros p q tf s S. unfold openC.
  destruct (_ && _ && _ && _) eqn:E; [|apply good_refl; exact S].
  apply andb_true_iff in E as [E _]. apply andb_true_iff in E as [E SD].
  apply andb_true_iff in E as [PL QL]. apply Nat.ltb_lt in PL, QL.
  set (nk := mkCkt p q (mkEnd true false [] [] false None false) noEnd tf false).
  set (s1 := setCkts (ckts s ++ [nk]) s).
  assert (SP : pSide (getP p s) <> pSide (getP q s)).
  { intro Q. rewrite Q, eqb_reflx in SD. discriminate. }
  assert (LN : length (ckts s1) = length (ckts s) + 1) by (unfold s1; cbn; rewrite app_length; cbn; lia).
  assert (OLD : forall c, c < length (ckts s) -> getC c s1 = getC c s).
  { intros c L. unfold s1, getC. cbn. apply app_nth1. exact L. }
  assert (NEW : getC (length (ckts s)) s1 = nk).
  { unfold s1, getC. cbn. rewrite app_nth2, Nat.sub_diag by lia. reflexivity. }
  assert (CS : forall c, c < length (ckts s) \/ c = length (ckts s) \/ length (ckts s) < c) by (intro; lia).
  assert (OV : forall c, length (ckts s) < c -> getC c s1 = noCkt).
  { intros c L. unfold getC. apply nth_overflow. rewrite LN. lia. }
  assert (OV0 : forall c, length (ckts s) <= c -> getC c s = noCkt).
  { intros c L. unfold getC. apply nth_overflow. exact L. }
  split.
  - constructor.
    + intros c L. rewrite LN in L. change (peers s1) with (peers s). change (getP (kFrom (getC c s1)) s1) with (getP (kFrom (getC c s1)) s).
      change (getP (kTo (getC c s1)) s1) with (getP (kTo (getC c s1)) s).
      destruct (CS c) as [C|[C|C]]; [rewrite (OLD c C); apply (iStatic _ S c C)| |lia].
      rewrite C, NEW. cbn. auto.
    + intros r c H. destruct (iMap _ S r c H) as (L & R). rewrite (OLD c L), LN. split; [lia|exact R].
    + apply (iMapND _ S).
    + apply (iDeliv _ S).
    + intros t m H. destruct (iWire _ S t m H) as (L & R). rewrite (OLD _ L), LN. split; [lia|exact R].
    + intros r k m H. destruct (iIn _ S r k m H) as (L & R). rewrite (OLD _ L), LN. split; [lia|exact R].
    + intros t c d H. destruct (iBoot _ S t c d H) as (L & R). rewrite (OLD _ L), LN. split; [lia|exact R].
    + intros c x k d H. destruct (iSends _ S c x k d H) as (L & R). rewrite (OLD _ L), LN. split; [lia|exact R].
    + intros c x r H. destruct (iBg _ S c x r H) as (L & R). rewrite (OLD _ L), LN. split; [lia|exact R].
    + exact (iDown _ S).
    + intros c x. destruct (CS c) as [C|[C|C]]; [rewrite (OLD c C); apply (iTold _ S)|subst c; rewrite NEW|rewrite (OV c C)];
        destruct x; cbn; discriminate.
    + intros c L. rewrite LN in L. destruct (CS c) as [C|[C|C]]; [rewrite (OLD c C); apply (iLiveA _ S c C)| |lia].
      subst c. rewrite NEW. reflexivity.
    + intros c. destruct (CS c) as [C|[C|C]]; [rewrite (OLD c C); apply (iNoB _ S)|subst c; rewrite NEW|rewrite (OV c C)]; reflexivity.
    + intros c. destruct (CS c) as [C|[C|C]]; [rewrite (OLD c C); apply (iLiveSt _ S)|subst c; rewrite NEW|rewrite (OV c C)]; cbn; discriminate.
    + intros c t H. change (wire t s1) with (wire t s). destruct (CS c) as [C|C]; [rewrite (OLD c C) in H; apply (iNoStart _ S c t H)|].
      apply badStart_none. intros m Hm Q. destruct (iWire _ S t m Hm) as [L _]. lia.
    + intros c. destruct (CS c) as [C|[C|C]]; [rewrite (OLD c C); exact (iStart _ S c)|subst c; rewrite NEW|rewrite (OV c C)]; cbn; discriminate.
    + intros c. destruct (CS c) as [C|C]; [rewrite (OLD c C); exact (iPre _ S c)|]. intros _ _.
      apply (iHist _ S c true false). lia.
    + intros c x k L. rewrite LN in L. apply (iHist _ S c x k). lia.
  - intros c x k. destruct (Nat.lt_ge_cases c (length (ckts s))) as [C|C].
    + unfold view. rewrite (OLD c C). apply vs_refl.
    + destruct (iHist _ S c x k C) as (H1 & H2 & H3 & H4). destruct (iHist _ S c (negb x) k C) as (H5 & _).
      assert (EQ : forall cc, queue k (endOf x cc) = [] -> eCanc (endOf x cc) = false ->
        mkV (map Some (recv c x k (hist s) ++ queue k (endOf x cc)))
            (inPump k c (pPump (getP (peerOf x cc) s)))
            (items k c (peerOf x cc) (inQ k (getP (peerOf x cc) s)))
            (inBoot x k c (boot (pSide (getP (peerOf x cc) s)) s))
            (items k c (peerOf x cc) (wire (pSide (getP (peerOf x cc) s)) s))
            (sentI c (negb x) k (hist s))
            (eCanc (endOf x cc)) (existsb (isGap c x) (hist s)) (connUp s)
            (negb k && existsb (isEnded c x) (hist s)) = mkV [] [] [] [] [] [] false false (connUp s) false).
      { intros cc Q1 Q2. destruct (fresh_parts s c x k (peerOf x cc) S C) as (F1 & F2 & F3 & F4).
        rewrite H2, H5, H3, H4, Q1, Q2, F1, F2, F3, F4, andb_false_r. reflexivity. }
      unfold view.
      change (connUp s1) with (connUp s). change (hist s1) with (hist s).
      change (getP (peerOf x (getC c s1)) s1) with (getP (peerOf x (getC c s1)) s).
      change (boot (pSide (getP (peerOf x (getC c s1)) s)) s1) with (boot (pSide (getP (peerOf x (getC c s1)) s)) s).
      change (wire (pSide (getP (peerOf x (getC c s1)) s)) s1) with (wire (pSide (getP (peerOf x (getC c s1)) s)) s).
      rewrite EQ, EQ; [apply vs_refl| | | |].
      * destruct (CS c) as [C1|[C1|C1]]; [lia|rewrite C1, NEW|rewrite (OV c C1)]; destruct x, k; reflexivity.
      * destruct (CS c) as [C1|[C1|C1]]; [lia|rewrite C1, NEW|rewrite (OV c C1)]; destruct x, k; reflexivity.
      * rewrite (OV0 c C). destruct x, k; reflexivity.
      * rewrite (OV0 c C). destruct x, k; reflexivity.
Qed.

Lemma sinv_addMap : forall p c s, sinv s -> c < length (ckts s) -> p < length (peers s) ->
  (p = kFrom (getC c s) \/ p = kTo (getC c s)) ->
  eLive (endOf (endAt p (getC c s)) (getC c s)) = true ->
  eTold (endOf (endAt p (getC c s)) (getC c s)) = true ->
  eCanc (endOf (endAt p (getC c s)) (getC c s)) = false ->
  ~ In c (pMap (getP p s)) ->
  sinv (updP p (fun a => setMap (c :: pMap a) a) s).
Proof.
  intros p c s S L PL PE LV TD CN NI.
  set (f := fun a => setMap (c :: pMap a) a).
  assert (SD : forall q, pSide (getP q (updP p f s)) = pSide (getP q s)) by (intro; apply fldP; reflexivity).
  assert (IQ : forall q k, inQ k (getP q (updP p f s)) = inQ k (getP q s)).
  { intros q k. rewrite getP_updP. destruct (_ && _); [destruct k; reflexivity|reflexivity]. }
  constructor.
  - intros d H. rewrite !SD, peers_len_updP. exact (iStatic _ S d H).
  - intros q d H. rewrite peers_len_updP. rewrite getP_updP in H.
    destruct ((q =? p) && _) eqn:E; [|exact (iMap _ S q d H)]. apply andb_true_iff in E as [E _].
    apply Nat.eqb_eq in E. subst q. destruct H as [<-|H]; [|exact (iMap _ S p d H)].
    rewrite getC_updP. repeat (split; [assumption|]). assumption.
  - intro q. rewrite getP_updP. destruct ((q =? p) && _) eqn:E; [|apply (iMapND _ S)].
    apply andb_true_iff in E as [E _]. apply Nat.eqb_eq in E. subst q. cbn. constructor; [exact NI|apply (iMapND _ S)].
  - intro q. rewrite getP_updP. destruct ((q =? p) && _) eqn:E; [|apply (iDeliv _ S)].
    apply andb_true_iff in E as [E _]. apply Nat.eqb_eq in E. subst q. pose proof (iDeliv _ S p) as D. cbn.
    destruct (pPump (getP p s)); auto.
  - intros t m H. rewrite SD. exact (iWire _ S t m H).
  - intros q k m. rewrite IQ. apply (iIn _ S).
  - intros t d z H. rewrite SD. exact (iBoot _ S t d z H).
  - exact (iSends _ S).
  - exact (iBg _ S).
  - exact (iDown _ S).
  - exact (iTold _ S).
  - exact (iLiveA _ S).
  - exact (iNoB _ S).
  - exact (iLiveSt _ S).
  - exact (iNoStart _ S).
  - intros d A B C. cbn zeta. rewrite SD, IQ. exact (iStart _ S d A B C).
  - exact (iPre _ S).
  - exact (iHist _ S).
Qed.

Lemma tellC_good : forall c s, sinv s -> good s (tellC c s).
Proof.
  intros c s S. unfold tellC.
  destruct (_ && _ && _ && _) eqn:E; [|apply good_refl; exact S].
  apply andb_true_iff in E as [E _]. apply andb_true_iff in E as [E _].
  apply andb_true_iff in E as [L TD]. apply Nat.ltb_lt in L. apply negb_true_iff in TD.
  set (p := kFrom (getC c s)).
  assert (PL : p < length (peers s)) by (apply (iStatic _ S c L)).
  assert (EA : endAt p (getC c s) = true) by (unfold endAt, p; apply Nat.eqb_refl).
  assert (NI : ~ In c (pMap (getP p s))).
  { intro H. destruct (iMap _ S p c H) as (_ & _ & _ & _ & T & _). rewrite EA in T. cbn in T. congruence. }
  assert (CN : eCanc (kA (getC c s)) = false).
  { destruct (eCanc (kA (getC c s))) eqn:Q; [|reflexivity]. pose proof (iTold _ S c true Q) as T. cbn in T. congruence. }
  assert (S1 : sinv (updC c (setEnd true setTold) s)).
  { apply sinv_updC; auto.
    - intro x. rewrite endOf_setEnd. destruct (Bool.eqb x true); reflexivity.
    - intro x. rewrite endOf_setEnd. destruct (Bool.eqb x true); auto.
    - intro x. rewrite endOf_setEnd. destruct (Bool.eqb x true); auto.
    - intro x. rewrite endOf_setEnd. destruct (Bool.eqb x true) eqn:Q; [reflexivity|apply (iTold _ S)].
    - intros q H. rewrite endOf_setEnd. destruct (iMap _ S q c H) as (_ & _ & _ & _ & _ & T).
      destruct (Bool.eqb _ true); exact T. }
  assert (GC : getC c (updC c (setEnd true setTold) s) = setEnd true setTold (getC c s)).
  { rewrite getC_updC, Nat.eqb_refl. apply Nat.ltb_lt in L. rewrite L. reflexivity. }
  apply good_same.
  - apply sinv_log; [|exact I]. apply sinv_addMap; auto.
    + rewrite ckts_len_updC. exact L.
    + rewrite GC. left. reflexivity.
    + rewrite GC. unfold endAt. cbn [setEnd kFrom]. fold p. rewrite Nat.eqb_refl. cbn. exact (iLiveA _ S c L).
    + rewrite GC. unfold endAt. cbn [setEnd kFrom]. fold p. rewrite Nat.eqb_refl. reflexivity.
    + rewrite GC. unfold endAt. cbn [setEnd kFrom]. fold p. rewrite Nat.eqb_refl. exact CN.
  - intros c' x k.
    change (view (log (ETold p c true) ?a) c' x k) with (view a c' x k).
    transitivity (view (updP p (fun a => setMap (c :: pMap a) a) (updC c (setEnd true setTold) s)) c' x k); [reflexivity|].
    rewrite view_updP; [|reflexivity|intros _ _; destruct k; split; reflexivity].
    apply view_updC; [intro; split; reflexivity|]. intros -> _. rewrite endOf_setEnd.
    destruct (Bool.eqb x true); destruct k; split; reflexivity.
Qed.

Lemma items_forB : forall c q l, items false c q l = [] -> forB c q l = [].
Proof.
  intros c q l. induction l as [|m l IH]; [reflexivity|]. rewrite items_cons. intro H.
  apply app_eq_nil in H as [H1 H2]. cbn [forB filter]. fold (forB c q l). rewrite (IH H2).
  destruct (isFor c q m); [|reflexivity]. unfold itemOf in H1. destruct (mTyp m); try discriminate. reflexivity.
Qed.

Lemma sub_empty : forall (A : Type) (l : list A), subseq l [] -> l = [].
Proof. intros A l H. inversion H. reflexivity. Qed.

Lemma startC_good : forall c d s, sinv s -> vinvs s -> good s (startC c d s).
Proof.
  intros c d s S V. unfold startC.
  destruct (_ && _ && _ && _ && _) eqn:E; [|apply good_refl; exact S].
  apply andb_true_iff in E as [E CN]. apply andb_true_iff in E as [E U]. apply andb_true_iff in E as [E _].
  apply andb_true_iff in E as [L NS]. apply Nat.ltb_lt in L. apply negb_true_iff in NS, CN.
  set (s1 := updC c setStarted s).
  assert (NB : eLive (kB (getC c s)) = false).
  { destruct (eLive (kB (getC c s))) eqn:Q; [|reflexivity]. rewrite (iLiveSt _ S c Q) in NS. discriminate. }
  destruct (peers_apart s c false (iStatic _ S) L) as [AP SD]. cbn [peerOf negb] in AP, SD.
  (* nothing was sent yet *)
  assert (EM : items false c (kTo (getC c s)) (inQ false (getP (kTo (getC c s)) s)) = [] /\
               items false c (kTo (getC c s)) (wire (pSide (getP (kTo (getC c s)) s)) s) = []).
  { pose proof (viSub _ (V c false false)) as Q. unfold view in Q. cbn [vF vD vR vB vW vSent negb] in Q.
    rewrite (iPre _ S c NS CN) in Q. apply sub_empty in Q.
    apply app_eq_nil in Q as [_ Q]. apply app_eq_nil in Q as [_ Q]. apply app_eq_nil in Q as [Q1 Q].
    apply app_eq_nil in Q as [_ Q2]. cbn [peerOf] in Q1, Q2. split; assumption. }
  destruct EM as [EM1 EM2].
  assert (GC : forall c', getC c' s1 = if c' =? c then setStarted (getC c' s) else getC c' s).
  { intro c'. unfold s1. rewrite getC_updC. apply Nat.ltb_lt in L. rewrite L, andb_true_r. reflexivity. }
  assert (K1 : forall c', kFrom (getC c' s1) = kFrom (getC c' s)) by (intro; rewrite GC; destruct (_ =? _); reflexivity).
  assert (K2 : forall c', kTo (getC c' s1) = kTo (getC c' s)) by (intro; rewrite GC; destruct (_ =? _); reflexivity).
  assert (K3 : forall x c', endOf x (getC c' s1) = endOf x (getC c' s)) by (intros x c'; rewrite GC; destruct (_ =? _), x; reflexivity).
  assert (K4 : forall c', kB (getC c' s1) = kB (getC c' s)) by (intro c'; exact (K3 false c')).
  assert (K5 : forall c', kA (getC c' s1) = kA (getC c' s)) by (intro c'; exact (K3 true c')).
  assert (K6 : forall c', kStarted (getC c' s) = true -> kStarted (getC c' s1) = true) by (intro c'; rewrite GC; destruct (_ =? _); auto).
  assert (K7 : forall p c', endAt p (getC c' s1) = endAt p (getC c' s)) by (intros p c'; unfold endAt; rewrite K1; reflexivity).
  assert (K8 : forall c', c' <> c -> getC c' s1 = getC c' s).
  { intros c' N. rewrite GC. apply Nat.eqb_neq in N. rewrite N. reflexivity. }
  assert (LN : length (ckts s1) = length (ckts s)) by (apply ckts_len_updC).
  change (log (ESent c true false d) (put c true TStart d s1)) with (putLog c true TStart d s1).
  assert (ST1 : statics s1).
  { intros c' H. rewrite LN in H. rewrite K1, K2. exact (iStatic _ S c' H). }
  split.
  - unfold putLog, put. set (side := negb (pSide (getP (peerOf true (getC c s1)) s1))).
    set (m := mkMsg TStart (peerOf (negb true) (getC c s1)) c d).
    assert (SE : side = pSide (getP (kTo (getC c s)) s)).
    { unfold side. cbn [peerOf]. rewrite K1. change (getP (kFrom (getC c s)) s1) with (getP (kFrom (getC c s)) s).
      rewrite SD, negb_involutive. reflexivity. }
    assert (ME : m = mkMsg TStart (kTo (getC c s)) c d) by (unfold m; cbn [negb peerOf]; rewrite K2; reflexivity).
    assert (WR : forall t, wire t (log (putEv c true TStart d) (setWire side (wire side s1 ++ [m]) s1)) =
                           if Bool.eqb t side then wire t s ++ [m] else wire t s).
    { intro t. change (wire t (log ?e ?a)) with (wire t a). transitivity (wire t (setWire side (wire side s1 ++ [m]) s1)); [reflexivity|].
      rewrite wire_setWire. destruct (Bool.eqb t side) eqn:Q; [apply eqb_prop in Q; subst t|]; reflexivity. }
    clearbody side m. subst side m.
    set (m := mkMsg TStart (kTo (getC c s)) c d) in *. set (side := pSide (getP (kTo (getC c s)) s)) in *.
    set (s2 := log _ _) in *.
    assert (G2 : forall c', getC c' s2 = getC c' s1) by reflexivity.
    assert (P2 : forall p, getP p s2 = getP p s) by reflexivity.
    assert (H2 : hist s2 = putEv c true TStart d :: hist s) by reflexivity.
    assert (L2 : length (ckts s2) = length (ckts s)) by exact LN.
    constructor.
    + intros c' H. rewrite L2 in H. rewrite G2, !P2, K1, K2. exact (iStatic _ S c' H).
    + intros p c' H. rewrite P2 in H. rewrite G2, L2, K1, K2, K7, K3. exact (iMap _ S p c' H).
    + exact (iMapND _ S).
    + exact (iDeliv _ S).
    + intros t m' H. rewrite WR in H. rewrite G2, L2, P2, K1, K2.
      destruct (Bool.eqb t side) eqn:Q; [|exact (iWire _ S t m' H)]. apply eqb_prop in Q. subst t.
      apply in_app_or in H as [H|[H|[]]]; [exact (iWire _ S _ m' H)|]. subst m'. cbn [m mCid mTo mTyp].
      split; [exact L|]. split; [reflexivity|]. split; [right; reflexivity|reflexivity].
    + intros p k m' H. rewrite G2, L2, K1, K2. exact (iIn _ S p k m' H).
    + intros t c' z H. rewrite G2, L2, P2, K2, K4. exact (iBoot _ S t c' z H).
    + intros c' x k z H. rewrite G2, L2. destruct (iSends _ S c' x k z H) as [A B]. split; [exact A|]. apply K6. exact B.
    + intros c' x r H. rewrite G2, L2, K3. exact (iBg _ S c' x r H).
    + intro D. change (connUp s2) with (connUp s) in D. congruence.
    + intros c' x. rewrite G2, K3. apply (iTold _ S).
    + intros c'. rewrite G2, K5, L2. apply (iLiveA _ S).
    + intros c'. rewrite G2, K4. apply (iNoB _ S).
    + intros c'. rewrite G2, K4. intro H. apply K6. apply (iLiveSt _ S c' H).
    + intros c' t. rewrite G2, K4, WR. intro H.
      destruct (Nat.eq_dec c' c) as [->|N].
      * rewrite GC, Nat.eqb_refl in H. cbn in H. rewrite NB in H. destruct H; discriminate.
      * rewrite (K8 c' N) in H. pose proof (iNoStart _ S c' t H) as Q.
        destruct (Bool.eqb t side); [|exact Q]. rewrite existsb_app, Q. cbn. unfold badStart. cbn [mCid m].
        destruct (Nat.eqb_spec c c'); [congruence|]. reflexivity.
    + intros c'. cbn zeta. rewrite G2, K4, K2, P2, WR. intros A B C.
      destruct (Nat.eq_dec c' c) as [->|N].
      * split; [exact EM1|]. fold side. rewrite eqb_reflx, forB_app. fold side in EM2. rewrite (items_forB _ _ _ EM2).
        cbn [app forB filter]. unfold isFor. cbn [mCid mTo m mTyp]. rewrite !Nat.eqb_refl. cbn. auto.
      * rewrite (K8 c' N) in A. destruct (iStart _ S c' A B C) as [Q1 Q2]. split; [exact Q1|].
        destruct (Bool.eqb _ side); [|exact Q2]. rewrite forB_app. cbn [forB filter]. unfold isFor at 1. cbn [mCid m].
        destruct (Nat.eqb_spec c c'); [congruence|]. cbn [andb]. fold (forB c' (kTo (getC c' s)) (wire (pSide (getP (kTo (getC c' s)) s)) s)).
        rewrite app_nil_r. exact Q2.
    + intros c'. rewrite G2, K5, H2, sentI_putEv. intros A B.
      destruct (Nat.eq_dec c' c) as [->|N]; [rewrite GC, Nat.eqb_refl in A; discriminate|].
      rewrite (K8 c' N) in A. rewrite (iPre _ S c' A B). unfold same. apply Nat.eqb_neq in N. rewrite N. reflexivity.
    + intros c' x k. rewrite L2, H2. intro H. destruct (iHist _ S c' x k H) as (A1 & A2 & A3 & A4).
      rewrite sentI_putEv, A1. unfold same. replace (c' =? c) with false by (symmetry; apply Nat.eqb_neq; lia).
      cbn. auto.
  - intros c' x k. eapply vs_trans; [|apply putLog_view; [exact ST1|rewrite LN; exact L|exact U]].
    assert (VE : view s1 c' x k = view s c' x k).
    { apply view_updC; [intro; split; reflexivity|]. intros _ _. destruct x; split; reflexivity. }
    rewrite VE. apply vs_refl.
Qed.

Lemma sendC_good : forall c x k d s, sinv s -> good s (sendC c x k d s).
Proof.
  intros c x k d s S. unfold sendC. destruct (given c x s && _ && _) eqn:E; [|apply good_refl; exact S].
  apply andb_true_iff in E as [E _]. apply andb_true_iff in E as [E _]. unfold given in E.
  apply andb_true_iff in E as [E ST]. apply andb_true_iff in E as [E _]. apply andb_true_iff in E as [L _].
  apply Nat.ltb_lt in L.
  apply good_same; [|reflexivity]. apply sinv_setSends; [exact S|]. intros c' x' k' d' H.
  apply in_app_or in H as [H|[H|[]]]; [exact (iSends _ S _ _ _ _ H)|]. injection H as <- <- <- <-. auto.
Qed.

Lemma putC_good : forall i s, sinv s -> good s (putC i s).
Proof.
  intros i s S. unfold putC. destruct (nth_error (sends s) i) as [[[[c x] k] d]|] eqn:E; [|apply good_refl; exact S].
  apply nth_error_In in E. destruct (iSends _ S _ _ _ _ E) as [L ST].
  assert (S1 : sinv (setSends (remAt i (sends s)) s)).
  { apply sinv_setSends; [exact S|]. intros c' x' k' d' H. apply remAt_in in H. exact (iSends _ S _ _ _ _ H). }
  destruct (connUp s) eqn:U; [|apply good_same; [exact S1|reflexivity]].
  assert (EQ : log (ESent c x k d) (put c x (if k then TErr else TTraffic) d (setSends (remAt i (sends s)) s)) =
               putLog c x (if k then TErr else TTraffic) d (setSends (remAt i (sends s)) s)).
  { unfold putLog. destruct k; reflexivity. }
  rewrite EQ. split.
  - apply sinv_putLog; auto.
    + destruct k; discriminate.
    + intros _ Q. change (kStarted (getC c s) = false) in Q. congruence.
  - intros c' x' k'. change (view s c' x' k') with (view (setSends (remAt i (sends s)) s) c' x' k').
    apply putLog_view; [apply (iStatic _ S1)|exact L|exact U].
Qed.

Lemma given_split : forall c x s, given c x s = true ->
  c < length (ckts s) /\ eLive (endOf x (getC c s)) = true /\ eTold (endOf x (getC c s)) = true /\ kStarted (getC c s) = true.
Proof.
  intros c x s E. unfold given in E.
  apply andb_true_iff in E as [E ST]. apply andb_true_iff in E as [E T]. apply andb_true_iff in E as [L LV].
  apply Nat.ltb_lt in L. auto.
Qed.

(** a change of an end that leaves its standing alone. *)
Lemma sinv_setEnd : forall c x f s, sinv s -> c < length (ckts s) -> eLive (endOf x (getC c s)) = true ->
  (forall e, eLive (f e) = eLive e /\ eTold (f e) = eTold e /\ eCanc (f e) = eCanc e) ->
  sinv (updC c (setEnd x f) s).
Proof.
  intros c x f s S L LV H. apply sinv_updC; auto.
  - intro a. destruct x; cbn; auto.
  - intro y. rewrite endOf_setEnd. destruct (Bool.eqb y x); [apply H|reflexivity].
  - intro y. rewrite endOf_setEnd. destruct (Bool.eqb y x); [|auto]. destruct (H (endOf y (getC c s))) as (_ & Q & _). rewrite Q. auto.
  - intro y. rewrite endOf_setEnd. destruct (Bool.eqb y x); [|auto]. destruct (H (endOf y (getC c s))) as (_ & _ & Q). rewrite Q. auto.
  - intro y. rewrite endOf_setEnd. destruct (Bool.eqb y x); [|apply (iTold _ S)].
    destruct (H (endOf y (getC c s))) as (_ & Q1 & Q2). rewrite Q1, Q2. apply (iTold _ S).
  - intro B. destruct x; [reflexivity|]. cbn in LV. congruence.
  - intros q Hq. rewrite endOf_setEnd. destruct (iMap _ S q c Hq) as (_ & _ & _ & _ & _ & T).
    destruct (Bool.eqb _ x); [|exact T]. destruct (H (endOf (endAt q (getC c s)) (getC c s))) as (_ & _ & Q). rewrite Q. exact T.
Qed.

Lemma recvC_good : forall c x k s, sinv s -> good s (recvC c x k s).
Proof.
  intros c x k s S. unfold recvC. destruct (given c x s) eqn:E; [|apply good_refl; exact S].
  apply given_split in E as (L & LV & _ & _).
  destruct (queue k (endOf x (getC c s))) as [|d r] eqn:EQ; [apply good_refl; exact S|].
  assert (S1 : sinv (updC c (setEnd x (setQueue k r)) s)).
  { apply sinv_setEnd; auto. intro e. destruct k; cbn; auto. }
  apply good_same.
  - apply sinv_log; [exact S1|]. cbn. rewrite upd_len. exact L.
  - intros c' x' k'. unfold view. cbn [log hist existsb isGap isEnded sentI orb].
    set (s1 := updC c (setEnd x (setQueue k r)) s).
    change (getC c' (log (ERecv c x k d) s1)) with (getC c' s1).
    assert (P : peerOf x' (getC c' s1) = peerOf x' (getC c' s)) by (apply fldC; intro; apply peerOf_setEnd).
    rewrite P.
    change (getP (peerOf x' (getC c' s)) (log (ERecv c x k d) s1)) with (getP (peerOf x' (getC c' s)) s).
    f_equal.
    + f_equal. unfold s1. rewrite getC_updC. pose proof L as L'. apply Nat.ltb_lt in L'. rewrite L', andb_true_r.
      change (hist (updC c (setEnd x (setQueue k r)) s)) with (hist s). cbn [recv].
      destruct (Nat.eqb_spec c' c) as [->|N].
      * rewrite endOf_setEnd. unfold same. rewrite Nat.eqb_refl. cbn [andb].
        destruct (Bool.eqb x' x) eqn:QX; cbn [andb]; [|reflexivity].
        apply eqb_prop in QX. subst x'. destruct (Bool.eqb k' k) eqn:QK.
        -- apply eqb_prop in QK. subst k'. rewrite EQ. destruct k; cbn; rewrite <- app_assoc; reflexivity.
        -- destruct k, k'; try discriminate; reflexivity.
      * unfold same. apply Nat.eqb_neq in N. rewrite N. reflexivity.
    + unfold s1. rewrite getC_updC. destruct (_ && _); [|reflexivity]. rewrite endOf_setEnd.
      destruct (Bool.eqb x' x); [|reflexivity]. destruct k; reflexivity.
Qed.

Lemma closeC_good : forall c x r s, sinv s -> good s (closeC c x r s).
Proof.
  intros c x r s S. unfold closeC. destruct (given c x s) eqn:E; [|apply good_refl; exact S].
  apply given_split in E as (L & LV & _ & _).
  assert (S1 : sinv (updC c (setEnd x (setHalt r)) s)).
  { apply sinv_setEnd; auto. }
  assert (V1 : forall c' x' k', view (updC c (setEnd x (setHalt r)) s) c' x' k' = view s c' x' k').
  { intros c' x' k'. apply view_updC; [intro a; destruct x; split; reflexivity|]. intros -> _.
    rewrite endOf_setEnd. destruct (Bool.eqb x' x), k'; split; reflexivity. }
  destruct (pUp _).
  - apply good_same; [apply (setClosing_sinv _ (fun a => pClosing a ++ [c])); exact S1|].
    intros. rewrite setClosing_view. apply V1.
  - apply good_same; [exact S1|exact V1].
Qed.

Lemma halt_good : forall p s, sinv s -> good s (updP p (setPUp false) s).
Proof.
  intros p s S. apply good_same.
  - apply sinv_updP; auto; [apply (iMapND _ S)|exact (iDeliv _ S p)].
  - intros. apply view_updP; [reflexivity|]. intros _ _. destruct k; split; reflexivity.
Qed.

Lemma downC_good : forall s, sinv s -> good s (downC s).
Proof.
  intros s S. split; [apply sinv_down; exact S|]. intros c x k. apply vs_one.
  assert (W : forall t, wire t (downC s) = []) by (intros []; reflexivity).
  unfold view. rewrite W.
  change (getC c (downC s)) with (getC c s). change (getP (peerOf x (getC c s)) (downC s)) with (getP (peerOf x (getC c s)) s).
  change (boot (pSide (getP (peerOf x (getC c s)) s)) (downC s)) with (boot (pSide (getP (peerOf x (getC c s)) s)) s).
  change (hist (downC s)) with (EDown :: hist s). cbn [recv sentI existsb isGap isEnded orb].
  change (items k c (peerOf x (getC c s)) []) with (@nil item). apply v_down.
Qed.

Lemma remBg_good : forall i c x r s, sinv s -> nth_error (bg s) i = Some (c, x, r) ->
  connUp s = true /\ c < length (ckts s) /\ eCanc (endOf x (getC c s)) = true /\ sinv (setBg (remAt i (bg s)) s).
Proof.
  intros i c x r s S E.
  assert (U : connUp s = true).
  { destruct (connUp s) eqn:U; [reflexivity|]. destruct (iDown _ S U) as (_ & _ & B). rewrite B in E. destruct i; discriminate. }
  apply nth_error_In in E. destruct (iBg _ S _ _ _ E) as [L CN].
  split; [exact U|]. split; [exact L|]. split; [exact CN|].
  apply sinv_setBg; [exact S| |congruence]. intros c' x' r' H. apply remAt_in in H. exact (iBg _ S _ _ _ H).
Qed.

Lemma bgPut_good : forall i s, sinv s -> good s (bgPut i s).
Proof.
  intros i s S. unfold bgPut. destruct (nth_error (bg s) i) as [[[c x] r]|] eqn:E; [|apply good_refl; exact S].
  destruct (remBg_good i c x r s S E) as (U & L & CN & S1).
  assert (EQ : notice c x r (setBg (remAt i (bg s)) s) =
    putLog c x (match r with Some _ => TErr | None => TEnd end) (match r with Some d => d | None => 0%Z end) (setBg (remAt i (bg s)) s)).
  { unfold notice, putLog. destruct r; reflexivity. }
  rewrite EQ. split.
  - apply sinv_putLog; auto; [destruct r; discriminate|]. intros -> _. exact CN.
  - intros c' x' k'. change (view s c' x' k') with (view (setBg (remAt i (bg s)) s) c' x' k').
    apply putLog_view; [apply (iStatic _ S1)|exact L|exact U].
Qed.

Lemma bgQuit_good : forall i s, sinv s -> good s (bgQuit i s).
Proof.
  intros i s S. unfold bgQuit. destruct (nth_error (bg s) i) as [[[c x] r]|] eqn:E; [|apply good_refl; exact S].
  destruct (remBg_good i c x r s S E) as (U & L & CN & S1).
  apply good_same; [|reflexivity]. apply sinv_log; [exact S1|exact I].
Qed.
