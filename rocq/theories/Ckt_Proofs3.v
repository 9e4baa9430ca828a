(** * Circuits: the rest of the ops, and every run *)

From Coq Require Import ZArith List Bool Arith Lia.
From Verif Require Import Ckt_Model Ckt_Spec Ckt_View Ckt_Proofs Ckt_Proofs2.
Import ListNotations.

Definition vinvs (s : state) : Prop := forall c x k, vinv (view s c x k).

Lemma gap_self : forall s c x k,
  view (log (EGap c x) s) c x k =
  (let v := view s c x k in
   mkV (vF v) (vD v) (vR v) (vB v) (vW v) (vSent v) (vCut v) true (vUp v) (vEnded v)).
Proof.
  intros. unfold view. cbn [log hist recv sentI existsb isGap isEnded vF vD vR vB vW vSent vCut vGap vUp vEnded].
  rewrite same_refl. reflexivity.
Qed.

Lemma gap_other : forall s c0 x0 c x k, same c0 c x0 x = false ->
  view (log (EGap c0 x0) s) c x k = view s c x k.
Proof.
  intros s c0 x0 c x k H. unfold view. cbn [log hist recv sentI existsb isGap isEnded].
  replace (same c c0 x x0) with false; [reflexivity|]. symmetry.
  destruct (same c c0 x x0) eqn:Q2; [|reflexivity]. apply same_spec in Q2 as [-> ->]. rewrite same_refl in H. discriminate.
Qed.

(** ** The rest of the pump *)

Lemma pErr_good : forall p s, sinv s -> good s (pErr p s).
Proof.
  intros p s S. unfold pErr.
  destruct (pPump (getP p s)) as [|c0 d late|c0 d|] eqn:EP; try (apply good_refl; exact S).
  destruct (pErrs (getP p s)) as [|m r] eqn:ER; [apply good_refl; exact S|].
  pose proof (setPErrs_sinv p m r s S ER) as S1.
  assert (PL : p < length (peers s)) by (apply (p_lt p true m r); exact ER).
  pose proof (pop_view p true m r s S ER PL) as PV. cbn zeta in PV.
  assert (HIn : In m (inQ true (getP p s))) by (cbn; rewrite ER; left; reflexivity).
  destruct (iIn _ S p true m HIn) as (L & MT & PE & TY).
  set (s1 := updP p (setPErrs r) s) in *. set (x0 := endAt p (getC (mCid m) s)) in *.
  assert (ET : itemOf true m = [Some (mData m)]).
  { unfold itemOf. destruct (mTyp m); try contradiction; try discriminate. reflexivity. }
  assert (ID1 : idle p s1) by (left; unfold s1; rewrite (fldP _ pPump) by reflexivity; exact EP).
  destruct (memN (mCid m) (pMap (getP p s))) eqn:MM.
  - apply memN_in in MM. destruct (iMap _ S p (mCid m) MM) as (_ & _ & _ & _ & _ & CN).
    assert (MM1 : In (mCid m) (pMap (getP p s1))) by (unfold s1; rewrite (fldP _ pMap) by reflexivity; exact MM).
    split.
    + apply setPump_sinv; [exact S1|exact MM1].
    + intros c x k. rewrite view_pump by (unfold s1; rewrite peers_len_updP; exact PL). cbn zeta.
      rewrite PV. change (getC c s1) with (getC c s).
      destruct (same (mCid m) c x0 x && Bool.eqb true k) eqn:Q.
      * apply andb_true_iff in Q as [Q1 Q2]. apply same_spec in Q1 as [<- <-]. apply eqb_prop in Q2. subst k.
        rewrite ET. unfold x0. rewrite (peerOf_endAt p _ PE), Nat.eqb_refl.
        cbn [inPump negb andb app]. rewrite Nat.eqb_refl. fold x0.
        assert (V0 : vD (view s1 (mCid m) x0 true) = []).
        { apply (view_idle p); [exact ID1|]. symmetry. apply (peerOf_endAt p _ PE). }
        assert (V1 : vCut (view s1 (mCid m) x0 true) = false) by exact CN.
        destruct (view s1 (mCid m) x0 true) as [f d1 r1 b w st cu g u e]. cbn in *. subst d1 cu.
        apply vs_one. apply v_take. discriminate.
      * destruct (Nat.eqb_spec p (peerOf x (getC c s))) as [EPX|EPX]; [|apply vs_refl].
        assert (D0 : vD (view s1 c x k) = []).
        { apply (view_idle p); [exact ID1|exact EPX]. }
        assert (P0 : inPump k c (DelivErr (mCid m) (mData m)) = []).
        { cbn [inPump]. destruct k; [|reflexivity]. cbn [andb]. destruct (Nat.eqb_spec (mCid m) c) as [EC|EC]; [|reflexivity].
          exfalso. rewrite <- EC in *. cbn in Q. rewrite andb_true_r in Q.
          assert (X : x0 = x). { unfold x0. rewrite EPX. apply endAt_peerOf; [apply (iStatic _ S)|exact L]. }
          rewrite X, same_refl in Q. discriminate. }
        rewrite P0. destruct (view s1 c x k) as [f d1 r1 b w st cu g u e]. cbn in *. subst d1. apply vs_refl.
  - destruct (eCanc (endOf x0 (getC (mCid m) s))) eqn:CN.
    + split; [exact S1|]. intros c x k. rewrite PV.
      destruct (same (mCid m) c x0 x && Bool.eqb true k) eqn:Q; [|apply vs_refl].
      apply andb_true_iff in Q as [Q1 Q2]. apply same_spec in Q1 as [<- <-]. apply eqb_prop in Q2. subst k. rewrite ET.
      assert (C0 : vCut (view s1 (mCid m) x0 true) = true) by exact CN.
      destruct (view s1 (mCid m) x0 true) as [f d1 r1 b w st cu g u e]. cbn in *. subst cu.
      apply vs_one; apply v_dropR.
    + split; [apply sinv_log; [exact S1|exact L]|]. intros c x k. rewrite PV.
      destruct (same (mCid m) c x0 x && Bool.eqb true k) eqn:Q; [|apply gap_view].
      apply andb_true_iff in Q as [Q1 Q2]. apply same_spec in Q1 as [<- <-]. apply eqb_prop in Q2. subst k. rewrite ET.
      rewrite gap_self. cbn zeta. destruct (view s1 (mCid m) x0 true) as [f d1 r1 b w st cu g u e]. cbn.
      apply vs_one; apply v_dropRgap.
Qed.

(** the pump stops delivering. *)
Lemma unpump_view : forall p s c0 v, sinv s -> p < length (peers s) ->
  In c0 (pMap (getP p s)) ->
  (forall k c, c <> c0 -> inPump k c (pPump (getP p s)) = []) ->
  (v = Idle \/ v = Gone) ->
  forall c x k,
  view (updP p (setPump v) s) c x k =
  (let w := view s c x k in
   if same c0 c (endAt p (getC c0 s)) x
   then mkV (vF w) [] (vR w) (vB w) (vW w) (vSent w) (vCut w) (vGap w) (vUp w) (vEnded w)
   else w).
Proof.
  intros p s c0 v S PL MM IP HV c x k. rewrite view_pump by exact PL. cbn zeta.
  assert (I0 : inPump k c v = []) by (destruct HV; subst v; reflexivity). rewrite I0.
  destruct (iMap _ S p c0 MM) as (L & _ & PE & _).
  destruct (same c0 c (endAt p (getC c0 s)) x) eqn:Q.
  - apply same_spec in Q as [<- <-]. rewrite (peerOf_endAt p _ PE), Nat.eqb_refl. reflexivity.
  - destruct (Nat.eqb_spec p (peerOf x (getC c s))) as [E|E]; [|reflexivity].
    assert (NE : c <> c0).
    { intro. subst c. rewrite E in Q. rewrite endAt_peerOf in Q by (try apply (iStatic _ S); exact L).
      rewrite same_refl in Q. discriminate. }
    assert (D0 : vD (view s c x k) = []).
    { unfold view. cbn [vD]. rewrite <- E. apply IP. exact NE. }
    destruct (view s c x k). cbn in *. subst. reflexivity.
Qed.

Lemma pump_lt : forall p s, pPump (getP p s) <> Gone -> p < length (peers s).
Proof.
  intros p s H. destruct (Nat.lt_ge_cases p (length (peers s))) as [L|L]; [exact L|].
  exfalso. apply H. unfold getP. rewrite nth_overflow by exact L. reflexivity.
Qed.

Lemma deliv_other : forall p s c0 k c,
  match pPump (getP p s) with Deliv a _ _ | DelivErr a _ => a = c0 | _ => True end ->
  c <> c0 -> inPump k c (pPump (getP p s)) = [].
Proof.
  intros p s c0 k c H N. destruct (pPump (getP p s)); cbn; auto; subst.
  - destruct (Nat.eqb_spec c0 c); [congruence|]. rewrite andb_false_r. reflexivity.
  - destruct (Nat.eqb_spec c0 c); [congruence|]. rewrite andb_false_r. reflexivity.
Qed.

(** Reads or Errors takes the fragment. *)
Lemma deliver_good : forall p (k0 : bool) c0 d s, sinv s ->
  (exists late : list nat, pPump (getP p s) = if k0 then DelivErr c0 d else Deliv c0 d late) ->
  let x0 := endAt p (getC c0 s) in
  let s1 := updP p (setPump Idle) (updC c0 (setEnd x0 (setQueue k0 (queue k0 (endOf x0 (getC c0 s)) ++ [d]))) s) in
  good s s1 /\ idle p s1.
Proof.
  intros p k0 c0 d s S H x0 s1. destruct H as [late EP].
  assert (PL : p < length (peers s)) by (apply pump_lt; rewrite EP; destruct k0; discriminate).
  assert (MM : In c0 (pMap (getP p s))).
  { pose proof (iDeliv _ S p) as D. rewrite EP in D. destruct k0; exact D. }
  destruct (iMap _ S p c0 MM) as (L & _ & PE & LV & TD & CN). fold x0 in LV, TD, CN.
  set (f := setEnd x0 (setQueue k0 (queue k0 (endOf x0 (getC c0 s)) ++ [d]))) in *.
  assert (FE : forall y, endOf y (f (getC c0 s)) = if Bool.eqb y x0 then setQueue k0 (queue k0 (endOf x0 (getC c0 s)) ++ [d]) (endOf y (getC c0 s)) else endOf y (getC c0 s))
    by (intro y; unfold f; apply endOf_setEnd).
  assert (S0 : sinv (updC c0 f s)).
  { apply sinv_updC; auto.
    - intro a. unfold f. destruct x0; cbn; auto.
    - intro y. rewrite FE. destruct (Bool.eqb y x0), k0; reflexivity.
    - intro y. rewrite FE. destruct (Bool.eqb y x0), k0; auto.
    - intro y. rewrite FE. destruct (Bool.eqb y x0), k0; auto.
    - intro y. rewrite FE. pose proof (iTold _ S c0 y) as T. destruct (Bool.eqb y x0), k0; auto.
    - intro B. unfold f. destruct x0; [reflexivity|]. cbn in LV. congruence.
    - intros q Hq. rewrite FE. destruct (iMap _ S q c0 Hq) as (_ & _ & _ & _ & _ & QC).
      destruct (Bool.eqb _ x0), k0; auto. }
  assert (MM0 : In c0 (pMap (getP p (updC c0 f s)))) by exact MM.
  split.
  - split.
    + apply setPump_sinv; [exact S0|exact I].
    + intros c x k. unfold s1. rewrite (unpump_view p _ c0 Idle S0 PL MM0); [|
        intros k' c' N; apply (deliv_other p _ c0); [rewrite getP_updC, EP; destruct k0; reflexivity|exact N]| left; reflexivity].
      assert (EA : endAt p (getC c0 (updC c0 f s)) = x0).
      { unfold x0, endAt. rewrite (fldC _ kFrom); [reflexivity|]. intro a. unfold f. destruct x0; reflexivity. }
      rewrite EA. cbn zeta. destruct (same c0 c x0 x) eqn:Q.
      * apply same_spec in Q as [<- <-]. destruct (Bool.eqb k k0) eqn:QK.
        -- apply eqb_prop in QK. subst k.
           assert (V0 : vD (view s c0 x0 k0) = [Some d]).
           { unfold view. cbn [vD]. unfold x0. rewrite (peerOf_endAt p _ PE), EP. destruct k0; cbn; rewrite Nat.eqb_refl; reflexivity. }
           assert (V1 : vCut (view s c0 x0 k0) = false) by exact CN.
           assert (V2 : view (updC c0 f s) c0 x0 k0 =
             let w := view s c0 x0 k0 in
             mkV (vF w ++ [Some d]) (vD w) (vR w) (vB w) (vW w) (vSent w) (vCut w) (vGap w) (vUp w) (vEnded w)).
           { unfold view. cbn zeta. cbn [vF vD vR vB vW vSent vCut vGap vUp vEnded].
             rewrite (fldC _ (peerOf x0)) by (intro; unfold f; apply peerOf_setEnd).
             rewrite getC_updC, Nat.eqb_refl. apply Nat.ltb_lt in L. rewrite L. cbn [andb].
             rewrite FE, eqb_reflx. f_equal.
             - change (hist (updC c0 f s)) with (hist s).
               rewrite map_app, map_app, <- app_assoc. f_equal. destruct k0; cbn; rewrite map_app; reflexivity.
             - destruct k0; reflexivity. }
           rewrite V2. cbn zeta. destruct (view s c0 x0 k0) as [a1 a2 a3 a4 a5 a6 a7 a8 a9 a10]. cbn in *. subst.
           apply vs_one. apply v_put.
        -- assert (V2 : view (updC c0 f s) c0 x0 k = view s c0 x0 k).
           { apply view_updC; [intro a; unfold f; destruct x0; auto|]. intros _ _. rewrite FE, eqb_reflx.
             destruct k, k0; try discriminate; split; reflexivity. }
           rewrite V2.
           assert (V0 : vD (view s c0 x0 k) = []).
           { unfold view. cbn [vD]. unfold x0. rewrite (peerOf_endAt p _ PE), EP.
             destruct k, k0; try discriminate; reflexivity. }
           destruct (view s c0 x0 k) as [a1 a2 a3 a4 a5 a6 a7 a8 a9 a10]. cbn in *. subst. apply vs_refl.
      * assert (V2 : view (updC c0 f s) c x k = view s c x k).
        { apply view_updC; [intro a; unfold f; destruct x0; auto|]. intros -> _. rewrite FE.
          destruct (Bool.eqb x x0) eqn:QX; [|split; reflexivity].
          apply eqb_prop in QX. subst x. rewrite same_refl in Q. discriminate. }
        rewrite V2. apply vs_refl.
  - left. unfold s1. rewrite getP_self; [reflexivity|exact PL].
Qed.

Lemma pPut_good : forall cap p busy s, sinv s -> good s (pPut cap p busy s).
Proof.
  intros cap p busy s S. unfold pPut.
  destruct (pPump (getP p s)) as [|c0 d late|c0 d|] eqn:EP; try (apply good_refl; exact S).
  - destruct (_ <? cap); [|apply good_refl; exact S].
    destruct (deliver_good p false c0 d s S (ex_intro _ late EP)) as [G1 ID].
    destruct (cleanups_ok p busy late _ (proj1 G1) ID) as [S2 V2].
    eapply good_trans; [exact G1|]. split; [exact S2|exact V2].
  - destruct (_ <? cap); [|apply good_refl; exact S].
    exact (proj1 (deliver_good p true c0 d s S (ex_intro _ [] EP))).
Qed.

Lemma cut_good : forall p busy c0 late s, sinv s ->
  match pPump (getP p s) with Deliv c _ _ | DelivErr c _ => c = c0 | _ => False end ->
  good s (cleanups p busy (c0 :: late) (updP p (setPump Idle) s)).
Proof.
  intros p busy c0 late s S EP.
  assert (PL : p < length (peers s)) by (apply pump_lt; intro Q; rewrite Q in EP; exact EP).
  assert (MM : In c0 (pMap (getP p s))).
  { pose proof (iDeliv _ S p) as D. destruct (pPump (getP p s)); try contradiction; subst; exact D. }
  assert (S1 : sinv (updP p (setPump Idle) s)) by (apply setPump_sinv; [exact S|exact I]).
  assert (ID1 : idle p (updP p (setPump Idle) s)) by (left; rewrite getP_self by exact PL; reflexivity).
  assert (MM1 : In c0 (pMap (getP p (updP p (setPump Idle) s)))) by (rewrite (fldP _ pMap) by reflexivity; exact MM).
  cbn [cleanups].
  destruct (cleanup_cut p busy c0 _ S1 MM1 ID1) as [S2 V2].
  assert (ID2 : idle p (cleanup p true busy c0 (updP p (setPump Idle) s))).
  { unfold idle. rewrite cleanup_idle. exact ID1. }
  destruct (cleanups_ok p busy late _ S2 ID2) as [S3 V3].
  split; [exact S3|]. intros c x k. eapply vs_trans; [|apply V3]. eapply vs_trans; [|apply V2].
  rewrite (unpump_view p s c0 Idle S PL MM); [| |left; reflexivity].
  - cbn zeta. change (getC c0 (updP p (setPump Idle) s)) with (getC c0 s).
    destruct (same c0 c (endAt p (getC c0 s)) x); [|apply vs_refl].
    destruct (view s c x k). apply vs_one. apply v_cut.
  - intros k' c' N. apply (deliv_other p s c0); [|exact N].
    destruct (pPump (getP p s)); try contradiction; assumption.
Qed.

Lemma pTwo_good : forall cap p busy s, sinv s -> good s (pTwo cap p busy s).
Proof.
  intros cap p busy s S. unfold pTwo.
  destruct (pPump (getP p s)) as [|c0 d late|c0 d|] eqn:EP; try (apply good_refl; exact S).
  destruct (_ <? cap); [apply good_refl; exact S|]. apply cut_good; [exact S|]. rewrite EP. reflexivity.
Qed.

Lemma pHalted_good : forall p busy s, sinv s -> good s (pHalted p busy s).
Proof.
  intros p busy s S. unfold pHalted.
  destruct (pPump (getP p s)) as [|c0 d late|c0 d|] eqn:EP; try (apply good_refl; exact S).
  - destruct (eHalt _); [|apply good_refl; exact S]. apply cut_good; [exact S|]. rewrite EP. reflexivity.
  - destruct (eHalt _); [|apply good_refl; exact S]. apply cut_good; [exact S|]. rewrite EP. reflexivity.
Qed.

Lemma pFive_good : forall cap p busy s, sinv s -> good s (pFive cap p busy s).
Proof.
  intros cap p busy s S. unfold pFive.
  destruct (pPump (getP p s)) as [|c0 d late|c0 d|] eqn:EP; try (apply good_refl; exact S).
  destruct late as [|l late]; [apply good_refl; exact S|].
  destruct (_ <? cap); [apply good_refl; exact S|].
  assert (PL : p < length (peers s)) by (apply pump_lt; rewrite EP; discriminate).
  assert (MM : In c0 (pMap (getP p s))).
  { pose proof (iDeliv _ S p) as D. rewrite EP in D. exact D. }
  destruct (iMap _ S p c0 MM) as (L & _ & PE & LV & TD & CN).
  assert (S1 : sinv (log (EGap c0 (endAt p (getC c0 s))) (updP p (setPump Idle) s))).
  { apply sinv_log; [apply setPump_sinv; [exact S|exact I]|exact L]. }
  assert (ID1 : idle p (log (EGap c0 (endAt p (getC c0 s))) (updP p (setPump Idle) s))).
  { left. change (getP p (log _ (updP p (setPump Idle) s))) with (getP p (updP p (setPump Idle) s)).
    rewrite getP_self by exact PL. reflexivity. }
  destruct (cleanups_ok p busy (l :: late) _ S1 ID1) as [S3 V3].
  split; [exact S3|]. intros c x k. eapply vs_trans; [|apply V3].
  assert (UV : view (updP p (setPump Idle) s) c x k =
   (let w := view s c x k in
   if same c0 c (endAt p (getC c0 s)) x
   then mkV (vF w) [] (vR w) (vB w) (vW w) (vSent w) (vCut w) (vGap w) (vUp w) (vEnded w)
   else w)).
  { apply unpump_view; auto. intros k' c' N. apply (deliv_other p s c0); [rewrite EP; reflexivity|exact N]. }
  destruct (same c0 c (endAt p (getC c0 s)) x) eqn:Q.
  - apply same_spec in Q as [<- <-]. rewrite gap_self, UV. cbn zeta.
    assert (V1 : vCut (view s c0 (endAt p (getC c0 s)) k) = false) by exact CN.
    destruct (view s c0 (endAt p (getC c0 s)) k) as [a1 a2 a3 a4 a5 a6 a7 a8 a9 a10]. cbn in *. subst.
    apply vs_one. apply v_dropD.
  - rewrite gap_other by exact Q. rewrite UV. apply vs_refl.
Qed.

(** *** Stopping *)

Lemma putLog_other : forall c0 x0 t d s c x k, c <> c0 ->
  view (putLog c0 x0 t d s) c x k = view s c x k.
Proof.
  intros c0 x0 t d s c x k N. unfold putLog, put.
  set (side := negb (pSide (getP (peerOf x0 (getC c0 s)) s))).
  set (m := mkMsg t (peerOf (negb x0) (getC c0 s)) c0 d).
  unfold view. cbn [log hist connUp].
  change (getC c (log _ (setWire side (wire side s ++ [m]) s))) with (getC c s).
  change (getP (peerOf x (getC c s)) (log _ (setWire side (wire side s ++ [m]) s))) with (getP (peerOf x (getC c s)) s).
  change (wire (pSide (getP (peerOf x (getC c s)) s)) (log _ (setWire side (wire side s ++ [m]) s)))
    with (wire (pSide (getP (peerOf x (getC c s)) s)) (setWire side (wire side s ++ [m]) s)).
  change (hist (setWire side (wire side s ++ [m]) s)) with (hist s).
  rewrite sentI_putEv.
  assert (Q : forall y, same c c0 y x0 = false).
  { intro y. unfold same. replace (c =? c0) with false; [reflexivity|]. symmetry. apply Nat.eqb_neq. exact N. }
  rewrite Q, app_nil_r.
  assert (R : recv c x k (putEv c0 x0 t d :: hist s) = recv c x k (hist s)) by (destruct t; reflexivity).
  assert (G : existsb (isGap c x) (putEv c0 x0 t d :: hist s) = existsb (isGap c x) (hist s)) by (destruct t; reflexivity).
  assert (E : existsb (isEnded c x) (putEv c0 x0 t d :: hist s) = existsb (isEnded c x) (hist s)) by (destruct t; reflexivity).
  rewrite R, G, E. clear R G E. rewrite wire_setWire.
  f_equal. destruct (Bool.eqb _ side) eqn:E; [|reflexivity]. apply eqb_prop in E. rewrite E.
  rewrite items_app.
  assert (Z : items k c (peerOf x (getC c s)) [m] = []); [|rewrite Z, app_nil_r; reflexivity].
  unfold items. cbn [flat_map]. unfold isFor, m. cbn [mCid mTo].
  destruct (Nat.eqb_spec c0 c) as [E2|E2]; [congruence|]. reflexivity.
Qed.

Lemma cleanup_other : forall p busy h s, sinv s -> idle p s -> forall c x k, c <> h ->
  view (cleanup p true busy h s) c x k = view s c x k.
Proof.
  intros p busy h s S ID c x k N. destruct (memN h (pMap (getP p s))) eqn:MM.
  - apply memN_in in MM. rewrite (cleanup_eq p true busy h s MM). cbn [negb].
    set (y := endAt p (getC h s)). set (rr := eReason _). clearbody rr.
    transitivity (view (cutS p h y s) c x k).
    + change (view (tellOther h y true busy rr (cutS p h y s)) c x k = view (cutS p h y s) c x k).
      unfold tellOther. destruct (true && _); [|reflexivity]. destruct busy; [reflexivity|].
      apply putLog_other. exact N.
    + unfold y. rewrite (cutS_view p h s S MM ID).
      unfold same. replace (h =? c) with false; [reflexivity|]. symmetry. apply Nat.eqb_neq. congruence.
  - unfold cleanup. rewrite MM. reflexivity.
Qed.

Lemma getC_put : forall c0 x0 t d s c, getC c (put c0 x0 t d s) = getC c s.
Proof. reflexivity. Qed.

Lemma cleanup_static : forall p busy h s q c,
  kFrom (getC c (cleanup p true busy h s)) = kFrom (getC c s) /\
  kTo (getC c (cleanup p true busy h s)) = kTo (getC c s) /\
  (c <> h -> In c (pMap (getP q s)) -> In c (pMap (getP q (cleanup p true busy h s)))).
Proof.
  intros p busy h s q c. destruct (memN h (pMap (getP p s))) eqn:MM.
  - apply memN_in in MM. rewrite (cleanup_eq p true busy h s MM).
    set (y := endAt p (getC h s)). set (rr := eReason _). clearbody y rr.
    assert (E1 : forall c', getC c' (log (EClosed p h y (negb true)) (tellOther h y true busy rr (cutS p h y s))) = getC c' (cutS p h y s)).
    { intro c'. unfold tellOther. destruct (true && _); [destruct busy|]; reflexivity. }
    assert (E2 : getP q (log (EClosed p h y (negb true)) (tellOther h y true busy rr (cutS p h y s))) = getP q (cutS p h y s)).
    { unfold tellOther. destruct (true && _); [destruct busy|]; reflexivity. }
    rewrite E1, E2. unfold cutS. rewrite getP_updC.
    rewrite (fldC _ kFrom), (fldC _ kTo) by (intro a; destruct y; reflexivity).
    split; [reflexivity|]. split; [reflexivity|]. intros N H. rewrite getP_updP.
    destruct (_ && _); [|exact H]. cbn. apply delN_in. auto.
  - unfold cleanup. rewrite MM. auto.
Qed.

Lemma cleanups_cut : forall p busy c0 cs s, sinv s -> idle p s -> In c0 cs -> In c0 (pMap (getP p s)) ->
  forall c x k,
  vsteps (if same c0 c (endAt p (getC c0 s)) x then cutV (view s c x k) else view s c x k)
         (view (cleanups p busy cs s) c x k).
Proof.
  intros p busy c0 cs. induction cs as [|h cs IH]; intros s S ID HI MM c x k; [destruct HI|].
  cbn [cleanups]. destruct (cleanup_ok p busy h s S ID) as (S2 & ID2 & V2).
  destruct (Nat.eq_dec h c0) as [->|N].
  - destruct (cleanup_cut p busy c0 s S MM ID) as [_ VC].
    destruct (cleanups_ok p busy cs _ S2 ID2) as [_ V3].
    eapply vs_trans; [apply VC|apply V3].
  - destruct HI as [HI|HI]; [congruence|].
    destruct (cleanup_static p busy h s p c0) as (K1 & K2 & K3).
    specialize (IH _ S2 ID2 HI (K3 (fun e => N (eq_sym e)) MM) c x k).
    assert (EA : endAt p (getC c0 (cleanup p true busy h s)) = endAt p (getC c0 s)) by (unfold endAt; rewrite K1; reflexivity).
    rewrite EA in IH. destruct (same c0 c (endAt p (getC c0 s)) x) eqn:Q.
    + apply same_spec in Q as [<- <-]. rewrite (cleanup_other p busy h s S ID) in IH by congruence. exact IH.
    + eapply vs_trans; [apply V2|exact IH].
Qed.

Lemma pExit_good : forall p busy s, sinv s -> good s (pExit p busy s).
Proof.
  intros p busy s S. unfold pExit.
  assert (G : pPump (getP p s) <> Gone -> good s (cleanups p busy (pMap (getP p s)) (updP p (setPump Gone) s))).
  { intro NG. pose proof (pump_lt p s NG) as PL.
    assert (S1 : sinv (updP p (setPump Gone) s)) by (apply setPump_sinv; [exact S|exact I]).
    assert (ID1 : idle p (updP p (setPump Gone) s)) by (right; rewrite getP_self by exact PL; reflexivity).
    destruct (cleanups_ok p busy (pMap (getP p s)) _ S1 ID1) as [S3 V3]. split; [exact S3|].
    assert (W : forall c0, In c0 (pMap (getP p s)) ->
      (forall k c, c <> c0 -> inPump k c (pPump (getP p s)) = []) ->
      forall c x k, vsteps (view s c x k) (view (cleanups p busy (pMap (getP p s)) (updP p (setPump Gone) s)) c x k)).
    { intros c0 MM IP c x k. eapply vs_trans; [|apply (cleanups_cut p busy c0); auto].
      - rewrite (unpump_view p s c0 Gone S PL MM IP) by (right; reflexivity). cbn zeta.
        change (getC c0 (updP p (setPump Gone) s)) with (getC c0 s).
        destruct (same c0 c (endAt p (getC c0 s)) x); [|apply vs_refl].
        destruct (view s c x k). apply vs_one. apply v_cut.
      - rewrite (fldP _ pMap) by reflexivity. exact MM. }
    pose proof (iDeliv _ S p) as D.
    destruct (pPump (getP p s)) as [|c0 d late|c0 d|] eqn:EP; [| | |congruence].
    - intros c x k. eapply vs_trans; [|apply V3].
      rewrite view_updP; [apply vs_refl|reflexivity|]. intros _ _. rewrite EP. split; [reflexivity|destruct k; reflexivity].
    - apply (W c0 D). intros k c N. rewrite <- EP. apply (deliv_other p s c0); [rewrite EP; reflexivity|exact N].
    - apply (W c0 D). intros k c N. rewrite <- EP. apply (deliv_other p s c0); [rewrite EP; reflexivity|exact N]. }
  destruct (pPump (getP p s)) as [|c0 d late|c0 d|] eqn:EP; try (apply good_refl; exact S);
    (destruct (pUp (getP p s)); [apply good_refl; exact S|apply G; discriminate]).
Qed.
