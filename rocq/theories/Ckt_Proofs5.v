(** * Circuits: the read loop; every run *)

From Coq Require Import ZArith List Bool Arith Lia.
From Verif Require Import Ckt_Model Ckt_Spec Ckt_View Ckt_Proofs Ckt_Proofs2 Ckt_Proofs3 Ckt_Proofs4.
Import ListNotations.

(** ** The read loop *)

Lemma bootC_good : forall t s, sinv s -> vinvs s -> good s (bootC t s).
Proof.
  intros t s S V. unfold bootC. destruct (boot t s) as [b|] eqn:EB; [apply good_refl; exact S|].
  destruct (wire t s) as [|m r] eqn:EW; [apply good_refl; exact S|].
  destruct (mTyp m) eqn:ET; try (apply good_refl; exact S).
  destruct (negb (pUp (getP (mTo m) s))); [apply downC_good; exact S|].
  destruct (takesNew (getP (mTo m) s)); [|apply good_refl; exact S].
  set (c := mCid m).
  assert (HIn : In m (wire t s)) by (rewrite EW; left; reflexivity).
  destruct (iWire _ S t m HIn) as (L & SD & PE & TO). specialize (TO ET). fold c in L, TO, PE.
  rewrite TO in *. clear PE. set (q := kTo (getC c s)) in *.
  assert (U : connUp s = true).
  { destruct (connUp s) eqn:U; [reflexivity|]. destruct (iDown _ S U) as (A & B & _). destruct t; congruence. }
  assert (STB : kStarted (getC c s) = true /\ eLive (kB (getC c s)) = false).
  { destruct (kStarted (getC c s)) eqn:Q1, (eLive (kB (getC c s))) eqn:Q2; auto; exfalso;
      [pose proof (iNoStart _ S c t (or_intror Q2)) as Q|pose proof (iNoStart _ S c t (or_introl Q1)) as Q
      |pose proof (iNoStart _ S c t (or_introl Q1)) as Q];
      rewrite EW in Q; cbn in Q; unfold badStart in Q at 1; unfold c in Q; rewrite Nat.eqb_refl, ET in Q; discriminate. }
  destruct STB as [ST NB].
  destruct (iStart _ S c ST NB U) as [EM1 EM2]. cbn zeta in EM1, EM2. fold q in EM1, EM2. rewrite SD, EW in EM2.
  cbn [forB filter] in EM2. unfold isFor at 1 in EM2. fold c in EM2. rewrite TO, !Nat.eqb_refl, ET in EM2. cbn [andb] in EM2.
  destruct EM2 as [_ EM2].
  destruct (iStatic _ S c L) as (FL & QL & AP). fold q in QL, AP.
  assert (EA : endAt q (getC c s) = false).
  { unfold endAt. apply Nat.eqb_neq. intro Q. apply AP. rewrite Q. reflexivity. }
  assert (NI : ~ In c (pMap (getP q s))).
  { intro H. destruct (iMap _ S q c H) as (_ & _ & _ & LV & _). rewrite EA in LV. cbn in LV. congruence. }
  assert (NBE : kB (getC c s) = noEnd) by (apply (iNoB _ S c NB)).
  assert (BR : existsb (badStart c) r = false).
  { destruct (existsb (badStart c) r) eqn:Q; [|reflexivity]. exfalso.
    apply existsb_exists in Q as [m' [H1 H2]]. assert (X : existsb (badStart c) (forB c q r) = true); [|unfold forB in X; congruence].
    apply existsb_exists. exists m'. split; [|exact H2]. apply filter_In. split; [exact H1|].
    unfold badStart in H2. apply andb_true_iff in H2 as [E1 E2]. apply Nat.eqb_eq in E1.
    assert (HIn' : In m' (wire t s)) by (rewrite EW; right; exact H1).
    destruct (iWire _ S t m' HIn') as (_ & _ & _ & T2). unfold isFor. rewrite E1, Nat.eqb_refl. cbn [andb].
    destruct (mTyp m') eqn:ET'; try discriminate. rewrite (T2 eq_refl), E1. fold q. rewrite Nat.eqb_refl. reflexivity. }
  set (nb := mkEnd true true [] [] false None false).
  set (f := setEnd false (fun _ : cend => nb)).
  set (s2 := log _ _).
  assert (G2 : forall c', getC c' s2 = if c' =? c then f (getC c' s) else getC c' s).
  { intro c'. unfold s2. change (getC c' (log ?e ?a)) with (getC c' a).
    transitivity (getC c' (updC c f (setWire t r s))); [reflexivity|]. rewrite getC_updC.
    change (ckts (setWire t r s)) with (ckts s). apply Nat.ltb_lt in L. rewrite L, andb_true_r. reflexivity. }
  assert (P2 : forall p, getP p s2 = if p =? q then setMap (c :: pMap (getP p s)) (getP p s) else getP p s).
  { intro p. transitivity (getP p (updP q (fun a => setMap (c :: pMap a) a) (updC c f (setWire t r s)))); [reflexivity|].
    rewrite getP_updP. change (peers (updC c f (setWire t r s))) with (peers s). apply Nat.ltb_lt in QL.
    rewrite QL, andb_true_r. reflexivity. }
  assert (W2 : forall t', wire t' s2 = if Bool.eqb t' t then r else wire t' s).
  { intro t'. transitivity (wire t' (setWire t r s)); [reflexivity|]. apply wire_setWire. }
  assert (B2 : forall t', boot t' s2 = if Bool.eqb t' t then Some (c, mData m) else boot t' s).
  { intro t'. transitivity (boot t' (setBoot t (Some (c, mData m)) s)); [destruct t', t; reflexivity|]. apply boot_setBoot. }
  assert (LC : length (ckts s2) = length (ckts s)).
  { transitivity (length (ckts (updC c f (setWire t r s)))); [reflexivity|]. rewrite ckts_len_updC. reflexivity. }
  assert (LP : length (peers s2) = length (peers s)).
  { transitivity (length (peers (updP q (fun a => setMap (c :: pMap a) a) (updC c f (setWire t r s))))); [reflexivity|].
    rewrite peers_len_updP. reflexivity. }
  assert (H2 : hist s2 = ETold q c false :: hist s) by reflexivity.
  assert (X1 : sends s2 = sends s) by reflexivity.
  assert (X2 : bg s2 = bg s) by reflexivity.
  assert (X3 : connUp s2 = connUp s) by reflexivity.
  clearbody s2.
  assert (K1 : forall c', kFrom (getC c' s2) = kFrom (getC c' s)) by (intro; rewrite G2; destruct (_ =? _); reflexivity).
  assert (K2 : forall c', kTo (getC c' s2) = kTo (getC c' s)) by (intro; rewrite G2; destruct (_ =? _); reflexivity).
  assert (K3 : forall c', kStarted (getC c' s2) = kStarted (getC c' s)) by (intro; rewrite G2; destruct (_ =? _); reflexivity).
  assert (K4 : forall c', kA (getC c' s2) = kA (getC c' s)) by (intro; rewrite G2; destruct (_ =? _); reflexivity).
  assert (K5 : forall c', c' <> c -> getC c' s2 = getC c' s).
  { intros c' N. rewrite G2. apply Nat.eqb_neq in N. rewrite N. reflexivity. }
  assert (K6 : kB (getC c s2) = nb) by (rewrite G2, Nat.eqb_refl; reflexivity).
  assert (K7 : forall p c', endAt p (getC c' s2) = endAt p (getC c' s)) by (intros p c'; unfold endAt; rewrite K1; reflexivity).
  assert (K8 : forall p, pSide (getP p s2) = pSide (getP p s)) by (intro p; rewrite P2; destruct (_ =? _); reflexivity).
  assert (K9 : forall k p, inQ k (getP p s2) = inQ k (getP p s)) by (intros k p; rewrite P2; destruct (_ =? _), k; reflexivity).
  assert (K10 : forall p, pPump (getP p s2) = pPump (getP p s)) by (intro p; rewrite P2; destruct (_ =? _); reflexivity).
  split.
  - constructor.
    + intros c' H. rewrite LC in H. rewrite K1, K2, LP, !K8. exact (iStatic _ S c' H).
    + intros p c' H. rewrite K1, K2, LC, LP, K7.
      assert (HC : (p = q /\ c' = c) \/ In c' (pMap (getP p s))).
      { rewrite P2 in H. destruct (Nat.eqb_spec p q) as [E|E]; [|right; exact H].
        destruct H as [H|H]; [left; split; [exact E|symmetry; exact H]|right; exact H]. }
      destruct HC as [[-> ->]|HC].
      * rewrite EA. cbn [endOf]. rewrite K6. split; [exact L|]. split; [exact QL|]. split; [right; reflexivity|]. cbn. auto.
      * destruct (iMap _ S p c' HC) as (A1 & A2 & A3 & A4 & A5 & A6).
        split; [exact A1|]. split; [exact A2|]. split; [exact A3|].
        destruct (Nat.eq_dec c' c) as [->|N]; [|rewrite (K5 c' N); auto].
        assert (EX : endAt p (getC c s) = true).
        { destruct (endAt p (getC c s)) eqn:Q; [reflexivity|]. exfalso. cbn in A4. congruence. }
        rewrite EX in *. cbn [endOf] in *. rewrite K4. auto.
    + intro p. rewrite P2. destruct (Nat.eqb_spec p q) as [->|E]; [|apply (iMapND _ S)]. cbn.
      constructor; [exact NI|apply (iMapND _ S)].
    + intro p. rewrite K10. pose proof (iDeliv _ S p) as D. rewrite P2.
      destruct (p =? q); [|exact D]. cbn. destruct (pPump (getP p s)); auto.
    + intros t' m' H. rewrite LC, K1, K2, K8. rewrite W2 in H. destruct (Bool.eqb t' t) eqn:Q; [|exact (iWire _ S t' m' H)].
      apply eqb_prop in Q. subst t'. apply (iWire _ S t m'). rewrite EW. right. exact H.
    + intros p k m' H. rewrite K9 in H. rewrite LC, K1, K2. exact (iIn _ S p k m' H).
    + intros t' c' d H. rewrite LC, K2, K8. rewrite B2 in H. destruct (Bool.eqb t' t) eqn:Q.
      * apply eqb_prop in Q. subst t'. injection H as <- <-. split; [exact L|]. split; [exact SD|]. rewrite K6. reflexivity.
      * destruct (iBoot _ S t' c' d H) as (A1 & A2 & A3). split; [exact A1|]. split; [exact A2|].
        destruct (Nat.eq_dec c' c) as [->|N]; [rewrite K6; reflexivity|rewrite (K5 c' N); exact A3].
    + intros c' x k d. rewrite X1, LC, K3. apply (iSends _ S).
    + intros c' x rr. rewrite X2, LC. intro H. destruct (iBg _ S c' x rr H) as (A1 & A2). split; [exact A1|].
      destruct (Nat.eq_dec c' c) as [->|N]; [|rewrite (K5 c' N); exact A2].
      destruct x; cbn [endOf] in *; [rewrite K4; exact A2|]. rewrite NBE in A2. discriminate.
    + rewrite X3. congruence.
    + intros c' x. destruct (Nat.eq_dec c' c) as [->|N]; [|rewrite (K5 c' N); apply (iTold _ S)].
      destruct x; cbn [endOf]; [rewrite K4; apply (iTold _ S c true)|]. rewrite K6. reflexivity.
    + intros c'. rewrite LC, K4. apply (iLiveA _ S).
    + intros c'. destruct (Nat.eq_dec c' c) as [->|N]; [rewrite K6; discriminate|rewrite (K5 c' N); apply (iNoB _ S)].
    + intros c'. rewrite K3. destruct (Nat.eq_dec c' c) as [->|N]; [intros _; exact ST|rewrite (K5 c' N); apply (iLiveSt _ S)].
    + intros c' t'. rewrite K3, W2. destruct (Nat.eq_dec c' c) as [->|N].
      * intros _. destruct (Bool.eqb t' t) eqn:Q; [exact BR|].
        destruct (existsb (badStart c) (wire t' s)) eqn:Q2; [|reflexivity]. exfalso.
        apply existsb_exists in Q2 as [m' [E1 E2]]. destruct (iWire _ S t' m' E1) as (_ & SD' & _ & TO').
        unfold badStart in E2. apply andb_true_iff in E2 as [E2 E3]. apply Nat.eqb_eq in E2.
        destruct (mTyp m') eqn:ET'; try discriminate. rewrite (TO' eq_refl), E2 in SD'. fold q in SD'.
        rewrite <- SD', SD, eqb_reflx in Q. discriminate.
      * rewrite (K5 c' N). intro H. pose proof (iNoStart _ S c' t' H) as Q. destruct (Bool.eqb t' t) eqn:Q2; [|exact Q].
        apply eqb_prop in Q2. subst t'. rewrite EW in Q. cbn in Q. apply orb_false_iff in Q. exact (proj2 Q).
    + intros c'. cbn zeta. rewrite K3, K2, K8, K9, W2, X3. destruct (Nat.eq_dec c' c) as [->|N].
      * rewrite K6. discriminate.
      * rewrite (K5 c' N). intros A B C. destruct (iStart _ S c' A B C) as [Q1 Q2]. cbn zeta in Q1, Q2. split; [exact Q1|].
        destruct (Bool.eqb _ t) eqn:Q3; [|exact Q2]. apply eqb_prop in Q3. rewrite Q3, EW in Q2.
        cbn [forB filter] in Q2. unfold isFor at 1 in Q2. fold c in Q2.
        destruct (Nat.eqb_spec c c'); [congruence|]. exact Q2.
    + intros c'. rewrite K3, K4, H2. exact (iPre _ S c').
    + intros c' x k. rewrite LC, H2. exact (iHist _ S c' x k).
  - intros c' x k.
    assert (DD : inPump k c (pPump (getP q s)) = []).
    { pose proof (iDeliv _ S q) as D. destruct (pPump (getP q s)) as [|a d late|a d|]; cbn; auto;
        (destruct (Nat.eqb_spec a c) as [->|]; [contradiction|rewrite andb_false_r; reflexivity]). }
    assert (RE : recv c' x k (hist s2) = recv c' x k (hist s)) by (rewrite H2; reflexivity).
    assert (SE : sentI c' (negb x) k (hist s2) = sentI c' (negb x) k (hist s)) by (rewrite H2; reflexivity).
    assert (GE : existsb (isGap c' x) (hist s2) = existsb (isGap c' x) (hist s)) by (rewrite H2; reflexivity).
    assert (EE : existsb (isEnded c' x) (hist s2) = existsb (isEnded c' x) (hist s)) by (rewrite H2; reflexivity).
    assert (PO : peerOf x (getC c' s2) = peerOf x (getC c' s)) by (destruct x; cbn; [apply K1|apply K2]).
    pose proof (V c' x k) as VI.
    unfold view in *. rewrite RE, SE, GE, EE, PO, X3, K8, K9, K10, W2, B2. clear RE SE GE EE PO.
    destruct (Nat.eq_dec c' c) as [->|N].
    + destruct x; cbn [peerOf endOf negb].
      * rewrite K4.
        assert (BX : forall b, inBoot true k c b = []) by (intros [[a d]|]; reflexivity). rewrite !BX.
        destruct (Bool.eqb _ t) eqn:Q; [|apply vs_refl]. apply eqb_prop in Q. exfalso. apply AP. congruence.
      * rewrite K6, NBE. fold q. rewrite SD, eqb_reflx, EB, EW, items_cons. fold q in VI. cbn [inBoot]. rewrite Nat.eqb_refl.
        unfold isFor at 1. fold c. rewrite TO, !Nat.eqb_refl. unfold itemOf at 1. rewrite ET. cbn [andb negb].
        destruct k; cbn [negb andb app].
        -- apply vs_refl.
        -- rewrite DD, EM1.
           assert (EN : existsb (isEnded c false) (hist s) = false).
           { destruct (existsb (isEnded c false) (hist s)) eqn:Q; [|reflexivity].
             assert (Q2 : eCanc (kB (getC c s)) = true) by (apply (viEnd _ VI); reflexivity).
             rewrite NBE in Q2. discriminate. }
           rewrite EN. cbn [queue noEnd nb eReads eCanc]. apply vs_one. apply v_boot. discriminate.
    + rewrite (K5 c' N).
      assert (BX : inBoot x k c' (Some (c, mData m)) = []).
      { cbn. destruct (Nat.eqb_spec c c'); [congruence|]. rewrite andb_false_r. reflexivity. }
      destruct (Bool.eqb _ t) eqn:Q; [|apply vs_refl]. apply eqb_prop in Q. rewrite Q, EB, EW, BX, items_cons.
      unfold isFor. fold c. destruct (Nat.eqb_spec c c'); [congruence|]. apply vs_refl.
Qed.

Lemma firstC_good : forall cap t took s, sinv s -> vinvs s -> good s (firstC cap t took s).
Proof.
  intros cap t took s S V. unfold firstC. destruct (boot t s) as [[c d]|] eqn:EB; [|apply good_refl; exact S].
  destruct (iBoot _ S t c d EB) as (L & SD & LV).
  assert (BV : forall v c' x k, view (setBoot t None v) c' x k =
    let w := view v c' x k in
    mkV (vF w) (vD w) (vR w) (if Bool.eqb (pSide (getP (peerOf x (getC c' v)) v)) t then [] else vB w) (vW w)
      (vSent w) (vCut w) (vGap w) (vUp w) (vEnded w)).
  { intros v c' x k. unfold view. cbn [vF vD vR vB vW vSent vCut vGap vUp vEnded].
    change (getC c' (setBoot t None v)) with (getC c' v).
    change (getP (peerOf x (getC c' v)) (setBoot t None v)) with (getP (peerOf x (getC c' v)) v).
    rewrite boot_setBoot. destruct (Bool.eqb _ t); reflexivity. }
  destruct took.
  - destruct (_ <? cap); [|apply good_refl; exact S].
    set (f := setReads (eReads (kB (getC c s)) ++ [d])).
    assert (S1 : sinv (updC c (setEnd false f) s)).
    { apply sinv_setEnd; auto. }
    split; [apply sinv_setBootNone; exact S1|]. intros c' x k. rewrite BV. cbn zeta.
    rewrite getP_updC. rewrite (fldC _ (peerOf x)) by (intro; apply peerOf_setEnd).
    destruct (same c c' false x && negb k) eqn:Q.
    + apply andb_true_iff in Q as [Q1 Q2]. apply same_spec in Q1 as [<- <-]. apply negb_true_iff in Q2. subst k.
      cbn [peerOf]. rewrite SD, eqb_reflx.
      assert (VB : vB (view s c false false) = [Some d]).
      { unfold view. cbn [vB peerOf]. rewrite SD, EB. cbn. rewrite Nat.eqb_refl. reflexivity. }
      destruct (viAlone _ (V c false false)) as [VD VR]; [rewrite VB; discriminate|].
      assert (V2 : view (updC c (setEnd false f) s) c false false =
             let w := view s c false false in
             mkV (vF w ++ [Some d]) (vD w) (vR w) (vB w) (vW w) (vSent w) (vCut w) (vGap w) (vUp w) (vEnded w)).
      { unfold view. cbn zeta. cbn [vF vD vR vB vW vSent vCut vGap vUp vEnded].
        rewrite (fldC _ (peerOf false)) by (intro; apply peerOf_setEnd).
        rewrite getC_updC, Nat.eqb_refl. apply Nat.ltb_lt in L. rewrite L. cbn [andb].
        f_equal. change (hist (updC c (setEnd false f) s)) with (hist s). cbn. rewrite !map_app, <- app_assoc. reflexivity. }
      rewrite V2. cbn zeta. destruct (view s c false false) as [a1 a2 a3 a4 a5 a6 a7 a8 a9 a10]. cbn in *. subst.
      apply vs_one. apply v_first. constructor; [discriminate|constructor].
    + assert (V2 : view (updC c (setEnd false f) s) c' x k = view s c' x k).
      { apply view_updC; [intro; split; reflexivity|]. intros -> _. rewrite endOf_setEnd.
        destruct (Bool.eqb x false) eqn:QX; [|split; reflexivity]. apply eqb_prop in QX. subst x.
        rewrite same_refl in Q. destruct k; [|discriminate]. split; reflexivity. }
      rewrite V2. destruct (Bool.eqb _ t) eqn:QT; [|destruct (view s c' x k); apply vs_refl].
      assert (VB : vB (view s c' x k) = []).
      { unfold view. cbn [vB]. apply eqb_prop in QT. rewrite QT, EB. cbn.
        destruct x, k; try reflexivity. cbn [negb andb]. destruct (Nat.eqb_spec c c') as [->|]; [|reflexivity].
        rewrite same_refl in Q. discriminate. }
      destruct (view s c' x k). cbn in *. subst. apply vs_refl.
  - destruct (eHalt _); [|apply good_refl; exact S].
    split; [apply sinv_log; [apply sinv_setBootNone; exact S|exact L]|].
    intros c' x k. destruct (same c c' false x) eqn:Q.
    + apply same_spec in Q as [<- <-]. rewrite gap_self, BV. cbn zeta. cbn [vF vD vR vB vW vSent vCut vGap vUp vEnded peerOf].
      rewrite SD, eqb_reflx. destruct (view s c false k). apply vs_one. apply v_firstLost.
    + rewrite gap_other by exact Q. rewrite BV. cbn zeta.
      destruct (Bool.eqb _ t) eqn:QT; [|destruct (view s c' x k); apply vs_refl].
      assert (VB : vB (view s c' x k) = []).
      { unfold view. cbn [vB]. apply eqb_prop in QT. rewrite QT, EB. cbn.
        destruct x, k; try reflexivity. cbn [negb andb]. destruct (Nat.eqb_spec c c') as [->|]; [|reflexivity].
        rewrite same_refl in Q. discriminate. }
      destruct (view s c' x k). cbn in *. subst. apply vs_refl.
Qed.

(** what the connection gives up is at its front. *)
Lemma pop_wire_view : forall t m r s, sinv s -> wire t s = m :: r ->
  forall c x k, view s c x k =
    (let v := view (setWire t r s) c x k in
     if same (mCid m) c (endAt (mTo m) (getC (mCid m) s)) x
     then mkV (vF v) (vD v) (vR v) (vB v) (itemOf k m ++ vW v) (vSent v) (vCut v) (vGap v) (vUp v) (vEnded v)
     else v).
Proof.
  intros t m r s S EW c x k.
  assert (HIn : In m (wire t s)) by (rewrite EW; left; reflexivity).
  destruct (iWire _ S t m HIn) as (L & SD & PE & _).
  cbn zeta. unfold view.
  change (getC c (setWire t r s)) with (getC c s).
  change (getP (peerOf x (getC c s)) (setWire t r s)) with (getP (peerOf x (getC c s)) s).
  rewrite wire_setWire. cbn [vF vD vR vB vW vSent vCut vGap vUp vEnded].
  destruct (same (mCid m) c (endAt (mTo m) (getC (mCid m) s)) x) eqn:Q.
  - apply same_spec in Q as [<- <-]. rewrite (peerOf_endAt (mTo m) _ PE).
    rewrite SD, eqb_reflx, EW, items_cons. unfold isFor at 1. rewrite !Nat.eqb_refl. reflexivity.
  - destruct (Bool.eqb _ t) eqn:QT; [|reflexivity]. apply eqb_prop in QT. rewrite QT, EW, items_cons.
    replace (isFor c (peerOf x (getC c s)) m) with false; [reflexivity|]. symmetry.
    destruct (isFor c (peerOf x (getC c s)) m) eqn:QF; [|reflexivity]. unfold isFor in QF.
    apply andb_true_iff in QF as [Q1 Q2]. apply Nat.eqb_eq in Q1, Q2. exfalso. subst c. rewrite Q2 in Q.
    rewrite endAt_peerOf in Q by (try apply (iStatic _ S); exact L). rewrite same_refl in Q. discriminate.
Qed.

Lemma msg_in_good : forall t m r (k0 : bool) s, sinv s -> boot t s = None -> wire t s = m :: r ->
  match mTyp m with TStart => False | TErr => k0 = true | _ => k0 = false end ->
  good s (setWire t r (updP (mTo m) (fun a => if k0 then setPErrs (pErrs a ++ [m]) a else setPReads (pReads a ++ [m]) a) s)).
Proof.
  intros t m r k0 s S EB EW TY.
  assert (HIn : In m (wire t s)) by (rewrite EW; left; reflexivity).
  destruct (iWire _ S t m HIn) as (L & SD & PE & _).
  set (f := fun a : peer => if k0 then setPErrs (pErrs a ++ [m]) a else setPReads (pReads a ++ [m]) a).
  set (q := mTo m) in *.
  assert (NS : mTyp m <> TStart) by (intro Q; rewrite Q in TY; exact TY).
  pose proof (sinv_pop t m r s S EW NS) as S1.
  assert (QL : q < length (peers s)).
  { destruct (iStatic _ S _ L) as (A & B & _). destruct PE as [-> | ->]; assumption. }
  set (s1 := setWire t r s) in *.
  change (setWire t r (updP q f s)) with (updP q f s1).
  assert (FS : forall a, pSide (f a) = pSide a) by (intro a; unfold f; destruct k0; reflexivity).
  assert (FM : forall a, pMap (f a) = pMap a) by (intro a; unfold f; destruct k0; reflexivity).
  assert (FP : forall a, pPump (f a) = pPump a) by (intro a; unfold f; destruct k0; reflexivity).
  assert (FQ : forall k a, inQ k (f a) = if Bool.eqb k k0 then inQ k a ++ [m] else inQ k a).
  { intros k a. unfold f. destruct k, k0; reflexivity. }
  assert (GQ : forall p k, inQ k (getP p (updP q f s1)) = if (p =? q) && Bool.eqb k k0 then inQ k (getP p s) ++ [m] else inQ k (getP p s)).
  { intros p k. rewrite getP_updP. change (peers s1) with (peers s). change (getP p s1) with (getP p s).
    apply Nat.ltb_lt in QL. rewrite QL, andb_true_r. destruct (p =? q); [rewrite FQ; reflexivity|reflexivity]. }
  split.
  - constructor.
    + intros c H. rewrite !(fldP _ pSide) by exact FS. rewrite peers_len_updP. exact (iStatic _ S1 c H).
    + intros p c. rewrite (fldP _ pMap) by exact FM. rewrite peers_len_updP. exact (iMap _ S1 p c).
    + intro p. rewrite (fldP _ pMap) by exact FM. exact (iMapND _ S1 p).
    + intro p. rewrite (fldP _ pMap) by exact FM. rewrite (fldP _ pPump) by exact FP. exact (iDeliv _ S1 p).
    + intros t' m' H. rewrite (fldP _ pSide) by exact FS. exact (iWire _ S1 t' m' H).
    + intros p k m' H. rewrite GQ in H. destruct ((p =? q) && Bool.eqb k k0) eqn:Q; [|exact (iIn _ S p k m' H)].
      apply andb_true_iff in Q as [Q1 Q2]. apply Nat.eqb_eq in Q1. apply eqb_prop in Q2. subst p k.
      apply in_app_or in H as [H|[H|[]]]; [exact (iIn _ S q k0 m' H)|]. subst m'.
      split; [exact L|]. split; [reflexivity|]. split; [exact PE|]. exact TY.
    + intros t' c d H. rewrite (fldP _ pSide) by exact FS. exact (iBoot _ S1 t' c d H).
    + exact (iSends _ S1).
    + exact (iBg _ S1).
    + exact (iDown _ S1).
    + exact (iTold _ S1).
    + exact (iLiveA _ S1).
    + exact (iNoB _ S1).
    + exact (iLiveSt _ S1).
    + exact (iNoStart _ S1).
    + intros c A B C. cbn zeta. rewrite (fldP _ pSide) by exact FS. destruct (iStart _ S1 c A B C) as [Q1 Q2].
      split; [|exact Q2]. rewrite GQ. change (getC c (updP q f s1)) with (getC c s).
      destruct (_ && _) eqn:Q; [|exact Q1]. apply andb_true_iff in Q as [Q3 Q4]. apply Nat.eqb_eq in Q3. apply eqb_prop in Q4. subst k0.
      rewrite items_app. cbn zeta in Q1. change (getC c s1) with (getC c s) in Q1.
      change (getP (kTo (getC c s)) s1) with (getP (kTo (getC c s)) s) in Q1. rewrite Q1. cbn [app]. rewrite items_cons.
      destruct (isFor c (kTo (getC c s)) m) eqn:QF; [|reflexivity]. exfalso.
      destruct (iStart _ S c A B C) as [_ Q5]. cbn zeta in Q5. rewrite Q3 in Q5. rewrite SD, EW in Q5. cbn [forB filter] in Q5.
      rewrite Q3 in QF. rewrite QF in Q5.
      destruct (mTyp m) eqn:ETM; try contradiction; try discriminate; cbn in Q5; rewrite ETM in Q5;
        destruct Q5 as [Q5 _]; discriminate.
    + exact (iPre _ S1).
    + exact (iHist _ S1).
  - intros c x k. rewrite (pop_wire_view t m r s S EW). cbn zeta. fold s1. fold q.
    destruct (same (mCid m) c (endAt q (getC (mCid m) s)) x) eqn:Q.
    + apply same_spec in Q as [<- <-]. set (x0 := endAt q (getC (mCid m) s)).
      destruct (Bool.eqb k k0) eqn:QK.
      * apply eqb_prop in QK. subst k.
        assert (V2 : view (updP q f s1) (mCid m) x0 k0 =
          let w := view s1 (mCid m) x0 k0 in
          mkV (vF w) (vD w) (vR w ++ itemOf k0 m) (vB w) (vW w) (vSent w) (vCut w) (vGap w) (vUp w) (vEnded w)).
        { unfold view. cbn zeta. cbn [vF vD vR vB vW vSent vCut vGap vUp vEnded].
          rewrite (fldP _ pSide) by exact FS. rewrite (fldP _ pPump) by exact FP.
          change (getC (mCid m) (updP q f s1)) with (getC (mCid m) s). change (getC (mCid m) s1) with (getC (mCid m) s).
          unfold x0. rewrite (peerOf_endAt q _ PE). rewrite GQ, Nat.eqb_refl, eqb_reflx. cbn [andb].
          rewrite items_app, items_cons. unfold isFor at 1. fold q. rewrite !Nat.eqb_refl. cbn [andb].
          change (items k0 (mCid m) q []) with (@nil item). rewrite app_nil_r. reflexivity. }
        rewrite V2. cbn zeta.
        assert (VB : vB (view s1 (mCid m) x0 k0) = []).
        { unfold view. cbn [vB]. change (getC (mCid m) s1) with (getC (mCid m) s). unfold x0. rewrite (peerOf_endAt q _ PE).
          change (getP q s1) with (getP q s). rewrite SD.
          change (boot t s1) with (boot t s). rewrite EB. reflexivity. }
        destruct (view s1 (mCid m) x0 k0) as [a1 a2 a3 a4 a5 a6 a7 a8 a9 a10]. cbn in *. subst a4.
        unfold itemOf. destruct (mTyp m), k0; try contradiction; try discriminate; apply vs_one; apply v_in.
      * assert (V2 : view (updP q f s1) (mCid m) x0 k = view s1 (mCid m) x0 k).
        { apply view_updP; [exact FS|]. intros _ _. rewrite FP, FQ, QK. split; reflexivity. }
        rewrite V2.
        assert (IE : itemOf k m = []).
        { unfold itemOf. destruct (mTyp m), k, k0; try contradiction; try discriminate; reflexivity. }
        rewrite IE. destruct (view s1 (mCid m) x0 k). apply vs_refl.
    + assert (V2 : view (updP q f s1) c x k = view s1 c x k).
      { apply view_updP; [exact FS|]. intros E _. rewrite FP, FQ. split; [reflexivity|].
        destruct (Bool.eqb k k0); [|reflexivity]. rewrite items_app, items_cons.
        destruct (isFor c q m) eqn:QF; [|cbn; rewrite app_nil_r; reflexivity]. exfalso.
        unfold isFor in QF. apply andb_true_iff in QF as [Q1 _]. apply Nat.eqb_eq in Q1. subst c.
        change (getC (mCid m) s1) with (getC (mCid m) s) in E.
        rewrite E in Q. rewrite endAt_peerOf in Q by (try apply (iStatic _ S); exact L). rewrite same_refl in Q. discriminate. }
      rewrite V2. apply vs_refl.
Qed.

Lemma msgC_good : forall cap t s, sinv s -> good s (msgC cap t s).
Proof.
  intros cap t s S. unfold msgC. destruct (boot t s) as [b|] eqn:EB; [apply good_refl; exact S|].
  destruct (wire t s) as [|m r] eqn:EW; [apply good_refl; exact S|].
  destruct (mTyp m) eqn:ET; try (apply good_refl; exact S);
    (destruct (_ <? cap); [|apply good_refl; exact S]).
  - apply (msg_in_good t m r false s S EB EW). rewrite ET. reflexivity.
  - apply (msg_in_good t m r true s S EB EW). rewrite ET. reflexivity.
  - apply (msg_in_good t m r false s S EB EW). rewrite ET. reflexivity.
Qed.

Lemma dropC_good : forall cap t s, sinv s -> good s (dropC cap t s).
Proof.
  intros cap t s S. unfold dropC. destruct (boot t s) as [b|] eqn:EB; [apply good_refl; exact S|].
  destruct (wire t s) as [|m r] eqn:EW; [apply good_refl; exact S|].
  assert (HIn : In m (wire t s)) by (rewrite EW; left; reflexivity).
  destruct (iWire _ S t m HIn) as (L & _).
  assert (G : mTyp m <> TStart -> good s (log (EGap (mCid m) (endAt (mTo m) (getC (mCid m) s))) (setWire t r s))).
  { intro NS. split; [apply sinv_log; [apply (sinv_pop t m r s S EW NS)|exact L]|].
    intros c x k. rewrite (pop_wire_view t m r s S EW). cbn zeta.
    destruct (same (mCid m) c (endAt (mTo m) (getC (mCid m) s)) x) eqn:Q.
    - apply same_spec in Q as [<- <-]. rewrite gap_self. cbn zeta.
      destruct (view (setWire t r s) (mCid m) (endAt (mTo m) (getC (mCid m) s)) k). cbn.
      unfold itemOf. destruct (mTyp m), k; cbn [app]; try congruence; apply vs_one; first [apply v_gap|apply v_drop].
    - rewrite gap_other by exact Q. apply vs_refl. }
  destruct (mTyp m) eqn:ET; try (apply good_refl; exact S);
    (destruct (_ <? cap); [apply good_refl; exact S|apply G; discriminate]).
Qed.

(** ** Every run *)

Theorem step_good : forall cap s o, sinv s -> vinvs s -> good s (step cap s o).
Proof.
  intros cap s o S V. destruct o; cbn [step];
    auto using openC_good, tellC_good, startC_good, sendC_good, putC_good, recvC_good, closeC_good, halt_good,
      downC_good, bgPut_good, bgQuit_good, bootC_good, firstC_good, msgC_good, dropC_good, pClose_good, pRead_good,
      pErr_good, pPut_good, pTwo_good, pFive_good, pHalted_good, pExit_good.
Qed.

Lemma getC_init : forall cfg c, getC c (init cfg) = noCkt.
Proof. intros. unfold getC, init. cbn. destruct c; reflexivity. Qed.

Lemma getP_init : forall cfg p, pMap (getP p (init cfg)) = [] /\ pReads (getP p (init cfg)) = [] /\ pErrs (getP p (init cfg)) = []
  /\ (pPump (getP p (init cfg)) = Idle \/ pPump (getP p (init cfg)) = Gone).
Proof.
  intros cfg p. unfold getP, init. cbn [peers]. revert p. induction cfg as [|a cfg IH]; intros [|p]; cbn; auto.
Qed.

Lemma sinv_init : forall cfg, sinv (init cfg).
Proof.
  intro cfg. constructor.
  - intros c H. cbn in H. lia.
  - intros p c H. destruct (getP_init cfg p) as (E & _). rewrite E in H. destruct H.
  - intro p. destruct (getP_init cfg p) as (E & _). rewrite E. constructor.
  - intro p. destruct (getP_init cfg p) as (_ & _ & _ & [E|E]); rewrite E; exact I.
  - intros [] m [].
  - intros p k m H. destruct (getP_init cfg p) as (_ & E1 & E2 & _). destruct k; unfold inQ in H; rewrite ?E1, ?E2 in H; destruct H.
  - intros [] c d H; discriminate.
  - intros c x k d [].
  - intros c x r [].
  - discriminate.
  - intros c x. rewrite getC_init. destruct x; discriminate.
  - intros c H. cbn in H. lia.
  - intros c. rewrite getC_init. reflexivity.
  - intros c. rewrite getC_init. discriminate.
  - intros c [] _; reflexivity.
  - intros c. rewrite getC_init. discriminate.
  - reflexivity.
  - intros. auto.
Qed.

Lemma vinvs_init : forall cfg, vinvs (init cfg).
Proof.
  intros cfg c x k. unfold view. rewrite getC_init.
  destruct (getP_init cfg (peerOf x noCkt)) as (_ & E1 & E2 & E3).
  assert (D0 : inPump k c (pPump (getP (peerOf x noCkt) (init cfg))) = []) by (destruct E3 as [E|E]; rewrite E; reflexivity).
  assert (Q0 : inQ k (getP (peerOf x noCkt) (init cfg)) = []) by (destruct k; assumption).
  rewrite D0, Q0. set (t := pSide _). clearbody t. destruct t, x, k; cbn; constructor; cbn; try discriminate;
    try (repeat split; constructor); try (intros; exists []; auto); try congruence.
Qed.

Theorem run_inv : forall cap cfg os, sinv (run cap cfg os) /\ vinvs (run cap cfg os).
Proof.
  intros cap cfg os. unfold run.
  assert (G : forall s, sinv s -> vinvs s -> sinv (fold_left (step cap) os s) /\ vinvs (fold_left (step cap) os s)).
  { induction os as [|o os IH]; intros s S V; cbn [fold_left]; [auto|].
    destruct (step_good cap s o S V) as [S1 V1]. apply IH; [exact S1|].
    intros c x k. eapply vsteps_inv; [apply V1|apply V]. }
  apply G; [apply sinv_init|apply vinvs_init].
Qed.
