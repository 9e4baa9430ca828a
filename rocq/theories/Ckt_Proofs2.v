(** * Circuits: cleaning up, and every op *)

From Coq Require Import ZArith List Bool Arith Lia.
From Verif Require Import Ckt_Model Ckt_Spec Ckt_View Ckt_Proofs.
Import ListNotations.

(** ** Views under changes of one part *)

Lemma view_updP : forall p f s c x k,
  (forall a, pSide (f a) = pSide a) ->
  (p = peerOf x (getC c s) -> p < length (peers s) ->
     inPump k c (pPump (f (getP p s))) = inPump k c (pPump (getP p s)) /\
     items k c p (inQ k (f (getP p s))) = items k c p (inQ k (getP p s))) ->
  view (updP p f s) c x k = view s c x k.
Proof.
  intros p f s c x k Hs H. unfold view. rewrite (fldP _ pSide) by exact Hs. rewrite getC_updP.
  rewrite getP_updP. destruct ((_ =? p) && _) eqn:E; [|reflexivity].
  apply andb_true_iff in E as [E L]. apply Nat.eqb_eq in E. apply Nat.ltb_lt in L.
  destruct (H (eq_sym E) L) as [A B]. rewrite E, A, B. reflexivity.
Qed.

Lemma view_updC : forall c0 f s c x k,
  (forall a, kFrom (f a) = kFrom a /\ kTo (f a) = kTo a) ->
  (c = c0 -> c < length (ckts s) ->
     queue k (endOf x (f (getC c s))) = queue k (endOf x (getC c s)) /\
     eCanc (endOf x (f (getC c s))) = eCanc (endOf x (getC c s))) ->
  view (updC c0 f s) c x k = view s c x k.
Proof.
  intros c0 f s c x k Hk H. unfold view.
  assert (P : peerOf x (getC c (updC c0 f s)) = peerOf x (getC c s)).
  { apply (fldC _ (peerOf x)). intro a. destruct (Hk a). destruct x; assumption. }
  rewrite P, !getP_updC. rewrite getC_updC. destruct ((_ =? c0) && _) eqn:E; [|reflexivity].
  apply andb_true_iff in E as [E L]. apply Nat.eqb_eq in E. apply Nat.ltb_lt in L. subst c0.
  destruct (H eq_refl L) as [A B]. rewrite A, B. reflexivity.
Qed.

(** ** Cleaning up *)

Definition cutV (v : Ckt_View.view) : Ckt_View.view :=
  mkV (vF v) [] (vR v) (vB v) (vW v) (vSent v) true (vGap v) (vUp v) (vEnded v).

Lemma cutV_step : forall v, vsteps v (cutV v).
Proof. intros []. apply vs_one. apply v_cut. Qed.

Definition idle (p : nat) (s : state) : Prop := pPump (getP p s) = Idle \/ pPump (getP p s) = Gone.

(** the circuit leaves the map and its context is cancelled. *)
Definition cutS (p c : nat) (x : bool) (s : state) : state :=
  updC c (setEnd x setCanc) (updP p (fun a => setMap (delN c (pMap a)) a) s).

Definition tellOther (c : nat) (x notify busy : bool) (r : option Z) (s : state) : state :=
  if notify && connUp s then
    if busy then setBg (bg s ++ [(c, x, r)]) s
    else putLog c x (match r with Some _ => TErr | None => TEnd end) (match r with Some d => d | None => 0%Z end) s
  else s.

Lemma put_cutS : forall p c x t d s,
  put c x t d (cutS p c x s) = cutS p c x (put c x t d s).
Proof.
  intros. unfold put, cutS.
  assert (P : forall y, peerOf y (getC c (updC c (setEnd x setCanc) (updP p (fun a => setMap (delN c (pMap a)) a) s))) = peerOf y (getC c s)).
  { intro y. rewrite (fldC _ (peerOf y)) by (intro; apply peerOf_setEnd). reflexivity. }
  rewrite !P, getP_updC, (fldP _ pSide) by reflexivity. reflexivity.
Qed.

Lemma cleanup_eq : forall p notify busy c s,
  In c (pMap (getP p s)) ->
  cleanup p notify busy c s =
  log (EClosed p c (endAt p (getC c s)) (negb notify))
    (tellOther c (endAt p (getC c s)) notify busy (eReason (endOf (endAt p (getC c s)) (getC c s)))
       (cutS p c (endAt p (getC c s)) s)).
Proof.
  intros p notify busy c s H. unfold cleanup. rewrite (proj2 (memN_in c _) H).
  replace (length (pMap (getP p s)) =? 0) with false by (destruct (pMap (getP p s)); [destruct H|reflexivity]).
  rewrite andb_false_r. f_equal. unfold tellOther. set (x := endAt p (getC c s)).
  change (connUp (cutS p c x s)) with (connUp s). change (bg (cutS p c x s)) with (bg s).
  destruct (notify && connUp s); [|reflexivity].
  destruct busy; [reflexivity|]. unfold notice, putLog. rewrite put_cutS.
  destruct (eReason (endOf x (getC c s))); reflexivity.
Qed.

Lemma cutS_view : forall p c s, sinv s -> In c (pMap (getP p s)) -> idle p s ->
  forall c' x' k',
  view (cutS p c (endAt p (getC c s)) s) c' x' k' =
  if same c c' (endAt p (getC c s)) x' then cutV (view s c' x' k') else view s c' x' k'.
Proof.
  intros p c s S H ID c' x' k'. destruct (iMap _ S p c H) as (L & PL & PE & _).
  set (x := endAt p (getC c s)). unfold cutS.
  destruct (same c c' x x') eqn:E.
  - apply same_spec in E as [<- <-].
    unfold view. cbn [cutV vF vD vR vB vW vSent vCut vGap vUp vEnded].
    assert (P : peerOf x (getC c (updC c (setEnd x setCanc) (updP p (fun a => setMap (delN c (pMap a)) a) s))) = p).
    { rewrite (fldC _ (peerOf x)) by (intro a; apply peerOf_setEnd). apply (peerOf_endAt p (getC c s) PE). }
    assert (PX : peerOf x (getC c s) = p) by (apply (peerOf_endAt p (getC c s) PE)).
    rewrite P, PX. clear P.
    rewrite getP_updC, getP_updP, Nat.eqb_refl. apply Nat.ltb_lt in PL. rewrite PL. cbn [andb].
    rewrite getC_updC, Nat.eqb_refl. change (ckts (updP p _ s)) with (ckts s). apply Nat.ltb_lt in L. rewrite L.
    cbn [andb]. rewrite endOf_setEnd, eqb_reflx. rewrite getC_updP. unfold cutV. cbn.
    destruct ID as [Q|Q]; rewrite Q; destruct k'; reflexivity.
  - rewrite view_updC.
    + apply view_updP; [reflexivity|]. intros _ _. destruct k'; split; reflexivity.
    + intro a. destruct x; split; reflexivity.
    + intros -> _. rewrite endOf_setEnd. unfold same in E. rewrite Nat.eqb_refl in E. cbn [andb] in E.
      destruct (Bool.eqb x' x) eqn:Q; [apply eqb_prop in Q; subst x'; rewrite eqb_reflx in E; discriminate|].
      split; reflexivity.
Qed.

Lemma delN_nodup : forall c l, NoDup l -> NoDup (delN c l).
Proof. intros. apply NoDup_filter. assumption. Qed.

Lemma cutS_sinv : forall p c s, sinv s -> In c (pMap (getP p s)) -> idle p s ->
  sinv (cutS p c (endAt p (getC c s)) s).
Proof.
  intros p c s S H ID. destruct (iMap _ S p c H) as (L & PL & PE & LV & TD & CN).
  unfold cutS. apply sinv_updC.
  - apply sinv_updP; auto.
    + intros d Hd. apply delN_in in Hd. tauto.
    + apply delN_nodup. apply (iMapND _ S).
    + cbn. destruct ID as [Q|Q]; rewrite Q; exact I.
  - exact L.
  - intro a. destruct (endAt p (getC c s)); cbn; auto.
  - intro y. rewrite getC_updP, endOf_setEnd. destruct (Bool.eqb _ _); reflexivity.
  - intro y. rewrite getC_updP, endOf_setEnd. destruct (Bool.eqb _ _); auto.
  - intro y. rewrite getC_updP, endOf_setEnd. destruct (Bool.eqb _ _); auto.
  - intro y. rewrite getC_updP, endOf_setEnd. destruct (Bool.eqb y (endAt p (getC c s))) eqn:Q.
    + apply eqb_prop in Q. subst y. intros _. exact TD.
    + apply (iTold _ S).
  - rewrite getC_updP. intro B. destruct (endAt p (getC c s)); [reflexivity|]. cbn in LV. congruence.
  - intros q Hq. rewrite getC_updP. rewrite endOf_setEnd.
    rewrite getP_updP in Hq. destruct ((q =? p) && _) eqn:E.
    + cbn in Hq. apply delN_in in Hq. destruct Hq. contradiction.
    + assert (NQ : q <> p).
      { intro. subst q. rewrite Nat.eqb_refl in E. apply Nat.ltb_lt in PL. rewrite PL in E. discriminate. }
      destruct (iMap _ S q c Hq) as (_ & _ & QE & _ & _ & QC).
      destruct (Bool.eqb _ _) eqn:B; [|exact QC]. apply eqb_prop in B.
      exfalso. apply NQ. rewrite <- (peerOf_endAt q _ QE), <- (peerOf_endAt p _ PE), B. reflexivity.
Qed.

Lemma cutS_canc : forall p c s, c < length (ckts s) ->
  eCanc (endOf (endAt p (getC c s)) (getC c (cutS p c (endAt p (getC c s)) s))) = true.
Proof.
  intros p c s L. unfold cutS. rewrite getC_updC, Nat.eqb_refl. change (ckts (updP _ _ s)) with (ckts s).
  apply Nat.ltb_lt in L. rewrite L. cbn [andb]. rewrite endOf_setEnd, eqb_reflx. reflexivity.
Qed.

Lemma tellOther_ok : forall c x notify busy r s, sinv s -> c < length (ckts s) ->
  eCanc (endOf x (getC c s)) = true ->
  sinv (tellOther c x notify busy r s) /\
  forall c' x' k', vsteps (view s c' x' k') (view (tellOther c x notify busy r s) c' x' k').
Proof.
  intros c x notify busy r s S L C. unfold tellOther.
  destruct notify; cbn [andb]; [|split; [exact S|intros; apply vs_refl]].
  destruct (connUp s) eqn:U; [|split; [exact S|intros; apply vs_refl]].
  destruct busy.
  - split; [|intros; apply vs_refl]. apply sinv_setBg; [exact S| |congruence].
    intros c' x' r' H. apply in_app_or in H as [H|[H|[]]]; [exact (iBg _ S _ _ _ H)|].
    injection H as <- <- <-. auto.
  - split; [|apply putLog_view; auto; apply (iStatic _ S)]. apply sinv_putLog; auto.
    + destruct r; discriminate.
    + intros -> _. exact C.
Qed.

(** cleanup with a notice, from a pump that is not delivering. *)
Lemma cleanup_cut : forall p busy c s, sinv s -> In c (pMap (getP p s)) -> idle p s ->
  sinv (cleanup p true busy c s) /\
  forall c' x' k',
    vsteps (if same c c' (endAt p (getC c s)) x' then cutV (view s c' x' k') else view s c' x' k')
           (view (cleanup p true busy c s) c' x' k').
Proof.
  intros p busy c s S H ID. destruct (iMap _ S p c H) as (L & _).
  rewrite (cleanup_eq p true busy c s H).
  assert (LC : c < length (ckts (cutS p c (endAt p (getC c s)) s))).
  { unfold cutS. rewrite ckts_len_updC. exact L. }
  destruct (tellOther_ok c (endAt p (getC c s)) true busy (eReason (endOf (endAt p (getC c s)) (getC c s)))
              _ (cutS_sinv p c s S H ID) LC (cutS_canc p c s L)) as [S2 V2].
  split.
  - apply sinv_log; [exact S2|]. cbn. unfold tellOther.
    destruct (true && _); [destruct busy|]; exact LC.
  - intros c' x' k'. rewrite <- (cutS_view p c s S H ID). cbn [negb].
    exact (V2 c' x' k').
Qed.

Lemma cleanup_idle : forall p q notify busy c s, pPump (getP q (cleanup p notify busy c s)) = pPump (getP q s).
Proof.
  intros p q notify busy c s. destruct (memN c (pMap (getP p s))) eqn:H.
  - rewrite (cleanup_eq _ _ _ _ _ (proj1 (memN_in _ _) H)).
    set (x := endAt p (getC c s)). set (r := eReason _). clearbody x r.
    transitivity (pPump (getP q (cutS p c x s))).
    + unfold tellOther. destruct (notify && _); [destruct busy|]; reflexivity.
    + unfold cutS. rewrite getP_updC. apply (fldP _ pPump). reflexivity.
  - unfold cleanup. rewrite H. reflexivity.
Qed.

Lemma cleanup_ok : forall p busy c s, sinv s -> idle p s ->
  sinv (cleanup p true busy c s) /\ idle p (cleanup p true busy c s) /\
  forall c' x' k', vsteps (view s c' x' k') (view (cleanup p true busy c s) c' x' k').
Proof.
  intros p busy c s S ID.
  assert (ID2 : idle p (cleanup p true busy c s)).
  { unfold idle. rewrite cleanup_idle. exact ID. }
  destruct (memN c (pMap (getP p s))) eqn:H.
  - apply memN_in in H. destruct (cleanup_cut p busy c s S H ID) as [S2 V]. split; [exact S2|]. split; [exact ID2|].
    intros c' x' k'. eapply vs_trans; [|apply V]. destruct (same _ _ _ _); [apply cutV_step|apply vs_refl].
  - split; [|split; [exact ID2|]]; unfold cleanup; rewrite H; auto. intros. apply vs_refl.
Qed.

Lemma cleanups_ok : forall p busy cs s, sinv s -> idle p s ->
  sinv (cleanups p busy cs s) /\
  forall c' x' k', vsteps (view s c' x' k') (view (cleanups p busy cs s) c' x' k').
Proof.
  intros p busy cs. induction cs as [|c cs IH]; intros s S ID; cbn [cleanups].
  - split; [exact S|intros; apply vs_refl].
  - destruct (cleanup_ok p busy c s S ID) as (S2 & ID2 & V). destruct (IH _ S2 ID2) as [S3 V3].
    split; [exact S3|]. intros. eapply vs_trans; [apply V|apply V3].
Qed.

(** ** The pump *)

Definition good (s s' : state) : Prop :=
  sinv s' /\ forall c x k, vsteps (view s c x k) (view s' c x k).

Lemma good_refl : forall s, sinv s -> good s s.
Proof. intros s S. split; [exact S|intros; apply vs_refl]. Qed.

Lemma good_trans : forall a b c, good a b -> good b c -> good a c.
Proof. intros a b c [A1 A2] [B1 B2]. split; [exact B1|]. intros. eapply vs_trans; [apply A2|apply B2]. Qed.

Lemma good_same : forall s s', sinv s' -> (forall c x k, view s' c x k = view s c x k) -> good s s'.
Proof. intros s s' S H. split; [exact S|]. intros. rewrite H. apply vs_refl. Qed.

Lemma getP_self : forall p f s, p < length (peers s) -> getP p (updP p f s) = f (getP p s).
Proof. intros p f s L. rewrite getP_updP, Nat.eqb_refl. apply Nat.ltb_lt in L. rewrite L. reflexivity. Qed.

Lemma setPump_sinv : forall p v s, sinv s ->
  match v with Deliv c _ _ | DelivErr c _ => In c (pMap (getP p s)) | _ => True end ->
  sinv (updP p (setPump v) s).
Proof. intros p v s S H. apply sinv_updP; auto. apply (iMapND _ S). Qed.

Lemma setClosing_sinv : forall p f s, sinv s -> sinv (updP p (fun a => setClosing (f a) a) s).
Proof.
  intros p f s S. apply sinv_updP; auto; [apply (iMapND _ S)|].
  pose proof (iDeliv _ S p) as D. exact D.
Qed.

Lemma setClosing_view : forall p f s c x k, view (updP p (fun a => setClosing (f a) a) s) c x k = view s c x k.
Proof. intros. apply view_updP; [reflexivity|]. intros _ _. destruct k; split; reflexivity. Qed.

Lemma pClose_good : forall p i busy s, sinv s -> good s (pClose p i busy s).
Proof.
  intros p i busy s S. unfold pClose. destruct (nth_error _ i) as [c|]; [|apply good_refl; exact S].
  pose proof (setClosing_sinv p (fun a => remAt i (pClosing a)) s S) as S1.
  destruct (pPump (getP p s)) as [|c0 d late|c0 d|] eqn:E; try (apply good_refl; exact S).
  - destruct (cleanup_ok p busy c (updP p (fun a => setClosing (remAt i (pClosing a)) a) s)) as (S2 & _ & V).
    + exact S1.
    + left. rewrite (fldP _ pPump) by reflexivity. exact E.
    + split; [exact S2|]. intros. rewrite <- (setClosing_view p (fun a => remAt i (pClosing a)) s). apply V.
  - pose proof (iDeliv _ S p) as D. rewrite E in D. apply good_same.
    + apply setPump_sinv; [exact S1|]. rewrite (fldP _ pMap) by reflexivity. exact D.
    + intros. rewrite view_updP; [apply setClosing_view|reflexivity|]. intros _ _.
      rewrite (fldP _ pPump) by reflexivity. rewrite E.
      split; [reflexivity|]. destruct k; reflexivity.
Qed.

Lemma items_cons : forall k c p m l, items k c p (m :: l) = (if isFor c p m then itemOf k m else []) ++ items k c p l.
Proof. reflexivity. Qed.

Lemma setPReads_sinv : forall p m r s, sinv s -> pReads (getP p s) = m :: r -> sinv (updP p (setPReads r) s).
Proof.
  intros p m r s S E. apply sinv_updP; auto.
  - apply (iMapND _ S).
  - exact (iDeliv _ S p).
  - intros [] m' H; cbn in *; auto. rewrite E. right. exact H.
  - intros c q H. change (inQ false (getP p s)) with (pReads (getP p s)) in H. rewrite E, items_cons in H.
    apply app_eq_nil in H. exact (proj2 H).
Qed.

Lemma setPErrs_sinv : forall p m r s, sinv s -> pErrs (getP p s) = m :: r -> sinv (updP p (setPErrs r) s).
Proof.
  intros p m r s S E. apply sinv_updP; auto.
  - apply (iMapND _ S).
  - exact (iDeliv _ S p).
  - intros [] m' H; cbn in *; auto. rewrite E. right. exact H.
Qed.

(** popping a message from ReadsIn or ErrorsIn: only its own direction sees it. *)
Lemma pop_view : forall p k0 m r s, sinv s -> inQ k0 (getP p s) = m :: r -> p < length (peers s) ->
  let s1 := updP p (if k0 then setPErrs r else setPReads r) s in
  forall c x k, view s c x k =
    (let v := view s1 c x k in
     if same (mCid m) c (endAt p (getC (mCid m) s)) x && Bool.eqb k0 k
     then mkV (vF v) (vD v) (itemOf k m ++ vR v) (vB v) (vW v) (vSent v) (vCut v) (vGap v) (vUp v) (vEnded v)
     else v).
Proof.
  intros p k0 m r s S E PL s1 c x k.
  assert (HIn : In m (inQ k0 (getP p s))) by (rewrite E; left; reflexivity).
  destruct (iIn _ S p k0 m HIn) as (L & MT & PE & TY).
  destruct (same (mCid m) c (endAt p (getC (mCid m) s)) x && Bool.eqb k0 k) eqn:Q.
  - apply andb_true_iff in Q as [Q1 Q2]. apply same_spec in Q1 as [<- <-]. apply eqb_prop in Q2. subst k.
    cbn zeta. unfold s1, view. rewrite (fldP _ pSide) by (intro; destruct k0; reflexivity).
    rewrite getC_updP, (peerOf_endAt p _ PE).
    cbn [vF vD vR vB vW vSent vCut vGap vUp vEnded].
    rewrite getP_self by exact PL. rewrite E.
    replace (pPump ((if k0 then setPErrs r else setPReads r) (getP p s))) with (pPump (getP p s)) by (destruct k0; reflexivity).
    replace (inQ k0 ((if k0 then setPErrs r else setPReads r) (getP p s))) with r by (destruct k0; reflexivity).
    rewrite items_cons. unfold isFor. rewrite MT, !Nat.eqb_refl. reflexivity.
  - symmetry. apply view_updP; [intro; destruct k0; reflexivity|].
    intros EP _. split; [destruct k0; reflexivity|].
    destruct (Bool.eqb k0 k) eqn:QK.
    + apply eqb_prop in QK. subst k.
      replace (inQ k0 ((if k0 then setPErrs r else setPReads r) (getP p s))) with r by (destruct k0; reflexivity).
      rewrite E, items_cons. unfold isFor. rewrite MT, Nat.eqb_refl, andb_true_r.
      destruct (Nat.eqb_spec (mCid m) c) as [EC|EC]; [|reflexivity]. exfalso.
      rewrite andb_true_r in Q. rewrite <- EC in *.
      assert (X : endAt p (getC (mCid m) s) = x).
      { rewrite EP. apply endAt_peerOf; [apply (iStatic _ S)|exact L]. }
      rewrite X, same_refl in Q. discriminate.
    + destruct k0, k; try discriminate; reflexivity.
Qed.

Lemma p_lt : forall p k m r s, inQ k (getP p s) = m :: r -> p < length (peers s).
Proof.
  intros p k m r s H. destruct (Nat.lt_ge_cases p (length (peers s))) as [L|L]; [exact L|].
  unfold getP in H. rewrite nth_overflow in H by exact L. destruct k; discriminate.
Qed.

Lemma gap_view : forall c0 x0 s c x k,
  vsteps (view s c x k) (view (log (EGap c0 x0) s) c x k).
Proof.
  intros. unfold view. cbn [log hist recv sentI existsb isGap isEnded orb].
  destruct (same c c0 x x0); cbn [orb]; [|apply vs_refl]. apply vs_one. apply v_gap.
Qed.

Lemma view_pump : forall p v s c x k, p < length (peers s) ->
  view (updP p (setPump v) s) c x k =
  (let w := view s c x k in
   if p =? peerOf x (getC c s)
   then mkV (vF w) (inPump k c v) (vR w) (vB w) (vW w) (vSent w) (vCut w) (vGap w) (vUp w) (vEnded w)
   else w).
Proof.
  intros p v s c x k PL. cbn zeta. destruct (Nat.eqb_spec p (peerOf x (getC c s))) as [E|E].
  - unfold view. rewrite (fldP _ pSide) by reflexivity. rewrite getC_updP, <- E, getP_self by exact PL.
    cbn. destruct k; reflexivity.
  - apply view_updP; [reflexivity|]. intro Q. contradiction.
Qed.

Lemma view_idle : forall p s c x k, idle p s -> p = peerOf x (getC c s) -> vD (view s c x k) = [].
Proof.
  intros p s c x k [Q|Q] E; unfold view; cbn [vD]; rewrite <- E, Q; reflexivity.
Qed.

Lemma pRead_good : forall p busy s, sinv s -> (forall c x k, vinv (view s c x k)) -> good s (pRead p busy s).
Proof.
  intros p busy s S VI. unfold pRead.
  destruct (pPump (getP p s)) as [|c0 d late|c0 d|] eqn:EP; try (apply good_refl; exact S).
  destruct (pReads (getP p s)) as [|m r] eqn:ER; [apply good_refl; exact S|].
  pose proof (setPReads_sinv p m r s S ER) as S1.
  assert (PL : p < length (peers s)) by (apply (p_lt p false m r); exact ER).
  pose proof (pop_view p false m r s S ER PL) as PV. cbn zeta in PV. cbn [app] in PV.
  assert (HIn : In m (inQ false (getP p s))) by (cbn; rewrite ER; left; reflexivity).
  destruct (iIn _ S p false m HIn) as (L & MT & PE & TY).
  set (s1 := updP p (setPReads r) s) in *. set (x0 := endAt p (getC (mCid m) s)) in *.
  destruct (memN (mCid m) (pMap (getP p s))) eqn:MM.
  - apply memN_in in MM. destruct (iMap _ S p (mCid m) MM) as (_ & _ & _ & _ & _ & CN).
    assert (MM1 : In (mCid m) (pMap (getP p s1))) by (unfold s1; rewrite (fldP _ pMap) by reflexivity; exact MM).
    assert (ID1 : idle p s1) by (left; unfold s1; rewrite (fldP _ pPump) by reflexivity; exact EP).
    destruct (mTyp m) eqn:ET; try contradiction; try discriminate.
    + (* traffic *)
      split.
      * apply setPump_sinv; [exact S1|exact MM1].
      * intros c x k. rewrite view_pump by (unfold s1; rewrite peers_len_updP; exact PL). cbn zeta.
        rewrite PV. change (getC c s1) with (getC c s).
        destruct (same (mCid m) c x0 x && Bool.eqb false k) eqn:Q.
        -- apply andb_true_iff in Q as [Q1 Q2]. apply same_spec in Q1 as [<- <-]. apply eqb_prop in Q2. subst k.
           unfold x0. rewrite (peerOf_endAt p _ PE), Nat.eqb_refl.
           cbn [inPump negb andb]. rewrite Nat.eqb_refl. unfold itemOf. rewrite ET. cbn [app].
           fold x0.
           assert (V0 : vD (view s1 (mCid m) x0 false) = []).
           { apply (view_idle p); [exact ID1|]. symmetry. apply (peerOf_endAt p _ PE). }
           assert (V1 : vCut (view s1 (mCid m) x0 false) = false) by exact CN.
           destruct (view s1 (mCid m) x0 false) as [f d1 r1 b w st cu g u e]. cbn in *. subst d1 cu.
           apply vs_one. apply v_take. discriminate.
        -- destruct (Nat.eqb_spec p (peerOf x (getC c s))) as [EPX|EPX]; [|apply vs_refl].
           assert (D0 : vD (view s1 c x k) = []).
           { apply (view_idle p); [exact ID1|exact EPX]. }
           assert (P0 : inPump k c (Deliv (mCid m) (mData m) []) = []).
           { cbn [inPump]. destruct k; [reflexivity|]. cbn [negb andb]. destruct (Nat.eqb_spec (mCid m) c) as [EC|EC]; [|reflexivity].
             exfalso. rewrite <- EC in *. cbn in Q. rewrite andb_true_r in Q.
             assert (X : x0 = x). { unfold x0. rewrite EPX. apply endAt_peerOf; [apply (iStatic _ S)|exact L]. }
             rewrite X, same_refl in Q. discriminate. }
           rewrite P0. destruct (view s1 c x k) as [f d1 r1 b w st cu g u e]. cbn in *. subst d1. apply vs_refl.
    + (* the notice of the end *)
      rewrite (cleanup_eq p false busy (mCid m) s1 MM1). cbn [negb]. unfold tellOther. cbn [andb].
      change (getC (mCid m) s1) with (getC (mCid m) s). fold x0.
      pose proof (cutS_view p (mCid m) s1 S1 MM1 ID1) as CV.
      pose proof (cutS_sinv p (mCid m) s1 S1 MM1 ID1) as CS.
      change (getC (mCid m) s1) with (getC (mCid m) s) in CV, CS. fold x0 in CV, CS.
      split.
      * apply sinv_log; [exact CS|]. cbn. unfold cutS. rewrite upd_len. exact L.
      * intros c x k.
        assert (EV : view (log (EClosed p (mCid m) x0 true) (cutS p (mCid m) x0 s1)) c x k =
          (let v := view (cutS p (mCid m) x0 s1) c x k in
           mkV (vF v) (vD v) (vR v) (vB v) (vW v) (vSent v) (vCut v) (vGap v) (vUp v)
             (vEnded v || (negb k && same c (mCid m) x x0)))).
        { unfold view. cbn [log hist recv sentI existsb isGap isEnded orb vF vD vR vB vW vSent vCut vGap vUp vEnded].
          rewrite <- andb_orb_distrib_r, (orb_comm (existsb _ _)). reflexivity. }
        rewrite EV, CV, PV. cbn zeta. clear EV CV.
        destruct (same (mCid m) c x0 x) eqn:Q; cbn [andb].
        -- apply same_spec in Q as [<- <-]. rewrite same_refl, andb_true_r. unfold cutV. cbn [vF vD vR vB vW vSent vCut vGap vUp vEnded].
           assert (V0 : vD (view s1 (mCid m) x0 k) = [] /\ vCut (view s1 (mCid m) x0 k) = false).
           { split; [|exact CN]. apply (view_idle p); [exact ID1|]. symmetry. apply (peerOf_endAt p _ PE). }
           destruct (view s1 (mCid m) x0 k) as [f d1 r1 b w st cu g u e]. cbn in *. destruct V0 as [-> ->].
           unfold itemOf. rewrite ET. destruct k; cbn [Bool.eqb negb app].
           ++ rewrite orb_false_r. apply vs_one. apply v_cut.
           ++ rewrite orb_true_r. apply vs_one. apply v_end.
        -- replace (same c (mCid m) x x0) with false.
           ++ rewrite andb_false_r, orb_false_r. destruct (view s1 c x k). apply vs_refl.
           ++ symmetry. destruct (same c (mCid m) x x0) eqn:Q2; [|reflexivity].
              apply same_spec in Q2 as [-> ->]. rewrite same_refl in Q. discriminate.
  - (* no such circuit *)
    destruct (eCanc (endOf x0 (getC (mCid m) s))) eqn:CN.
    + split; [exact S1|]. intros c x k. rewrite PV.
      destruct (same (mCid m) c x0 x && Bool.eqb false k) eqn:Q; [|apply vs_refl].
      apply andb_true_iff in Q as [Q1 Q2]. apply same_spec in Q1 as [<- <-]. apply eqb_prop in Q2. subst k.
      assert (C0 : vCut (view s1 (mCid m) x0 false) = true) by exact CN.
      destruct (view s1 (mCid m) x0 false) as [f d1 r1 b w st cu g u e]. cbn in *. subst cu.
      unfold itemOf. destruct (mTyp m); cbn; try contradiction; try discriminate; apply vs_one; apply v_dropR.
    + split; [apply sinv_log; [exact S1|exact L]|]. intros c x k. rewrite PV.
      destruct (same (mCid m) c x0 x && Bool.eqb false k) eqn:Q; [|apply gap_view].
      apply andb_true_iff in Q as [Q1 Q2]. apply same_spec in Q1 as [<- <-]. apply eqb_prop in Q2. subst k.
      assert (EV : view (log (EGap (mCid m) x0) s1) (mCid m) x0 false =
        (let v := view s1 (mCid m) x0 false in
         mkV (vF v) (vD v) (vR v) (vB v) (vW v) (vSent v) (vCut v) true (vUp v) (vEnded v))).
      { unfold view. cbn [log hist recv sentI existsb isGap isEnded vF vD vR vB vW vSent vCut vGap vUp vEnded].
        rewrite same_refl. reflexivity. }
      rewrite EV. cbn zeta. destruct (view s1 (mCid m) x0 false) as [f d1 r1 b w st cu g u e]. cbn.
      unfold itemOf. destruct (mTyp m); cbn; try contradiction; try discriminate; apply vs_one; apply v_dropRgap.
Qed.
