(** Leases that keep a key, scans, and saving the store. *)
From Coq Require Import List ZArith Lia Bool Sorted Permutation.
From Verif Require Import Base Kv_Model Kv_Spec Kv_Proofs Kv_Hist Kv_Rep.
Import ListNotations.
Open Scope Z_scope.

Lemma writeFailed_reports : forall drift l t, tErr t <> None -> ReportsCurrent drift l (writeFailed drift l t).
Proof. intros drift l t H. unfold ReportsCurrent. cbn [writeFailed setInfo setCur tErr tCur tInfo]. repeat (split; [auto; fail|]). auto. Qed.
Lemma swapped_reports : forall drift l t b, ReportsCurrent drift l t -> ReportsCurrent drift l (setSwapped b t).
Proof. intros drift l t b H. exact H. Qed.

Lemma wcase_refused : forall drift s t s' t' b l, wcase drift s t s' t' b ->
  findLeaf s (qTable (tReq t)) (qKey (tReq t)) = Some l -> InForce drift (qTm (tReq t)) l -> ~ Holder t l ->
  s' = s /\ ReportsCurrent drift l t' /\ tErr t' <> None.
Proof.
  intros drift s t s' t' b l W F I N.
  destruct W as [F0|l0 e F0 R|l0 F0 Ix Nl|l0 F0 Ix Nl D U Hh|l0 F0 Ix Nl U D]; rewrite F in F0; try discriminate; injection F0 as <-.
  - split; auto. split; [apply writeFailed_reports|]; discriminate.
  - rewrite (inForce_noLease _ _ _ I) in Nl. discriminate.
  - contradiction.
  - destruct I as (_ & _ & I). lia.
Qed.

Lemma refused : forall drift now s t s' t' l, IsWrite t -> apply drift now s t = Ok (s', t') ->
  findLeaf s (qTable (tReq t)) (qKey (tReq t)) = Some l -> InForce drift (qTm (tReq t)) l -> ~ Holder t l ->
  s' = s /\ ReportsCurrent drift l t' /\ (tSwapped t = false -> tSwapped t' = false).
Proof.
  intros drift now s t s' t' l [O|O] A F I N.
  - pose proof (apply_write _ _ _ _ _ _ O A) as (b & W).
    pose proof (wcase_refused _ _ _ _ _ _ _ W F I N) as (-> & R & _). split; auto. split; auto.
    apply wcase_inv in W as [(_ & _ & l0 & e & _ & -> & _)|(_ & _ & _ & _ & -> & _)]; auto.
  - pose proof (apply_cas _ _ _ _ _ _ O A) as C. destruct C as [F0 _|l0 e t1 F0 R E V Sw _|s' t1 b _ W].
    + congruence.
    + assert (l0 = l) by congruence. subst l0. split; auto. split; [apply writeFailed_reports; congruence|].
      intros Z0. cbn [writeFailed setInfo setCur tSwapped]. destruct Sw as [-> | ->]; auto.
    + pose proof (wcase_refused _ _ _ _ _ _ _ W F I N) as (-> & R & E). split; auto. split; auto.
      intros _. cbn [setSwapped tSwapped]. destruct (tErr t1); [reflexivity|contradiction].
Qed.

Lemma write_ok : forall drift now s t, IsWrite t -> qTm (tReq t) <> 0 -> exists s' t', apply drift now s t = Ok (s', t').
Proof.
  intros drift now s t W T. unfold apply. destruct W as [->| ->].
  - destruct (kvw_ok drift now false s t T) as (((s', t'), b) & ->). eexists _, _. reflexivity.
  - assert (K : exists s' t', casWrite drift s t = Ok (s', t')).
    { unfold casWrite, bind. destruct (kvw_ok drift 0 false s t T) as (((s', t'), b) & ->). eexists _, _. reflexivity. }
    unfold doCAS. destruct findLeaf as [l|].
    + destruct (validLease drift t l && negb (beqb (lLeasor l) (iLeasor (tInfo t)))); [eexists _, _; reflexivity|].
      destruct (0 <? qOldVersion (tReq t)); [destruct negb; [eexists _, _; reflexivity|auto]|].
      destruct (0 <? qOldEpoch (tReq t)); [destruct negb; [eexists _, _; reflexivity|auto]|].
      destruct (qOldVal (tReq t)); auto. destruct beqb; auto. eexists _, _. reflexivity.
    + destruct (_ || _); [eexists _, _; reflexivity|]. destruct (qOldVal (tReq t)); auto. eexists _, _. reflexivity.
Qed.

Lemma sorted_one : forall (m : table) k l l', SortedKeys m -> mget k m = Some l -> In (k, l') m -> l' = l.
Proof. intros m k l l' S G I. apply (sorted_get _ _ _ S) in I. congruence. Qed.

Lemma apply_keeps : forall drift now s t s' t' tab key l, WfStore s -> tab <> dead -> findLeaf s tab key = Some l ->
  lLeasor l <> [] -> lUntil l <> 0 -> lAuto l = false -> Harmless drift tab key l t ->
  apply drift now s t = Ok (s', t') -> findLeaf s' tab key = Some l.
Proof.
  intros drift now s t s' t' tab key l W N F L1 L2 L3 (Tm & Hw & Hd & Ht) A.
  assert (IF : InForce drift (qTm (tReq t)) l) by (split; auto).
  assert (SC : forall m seen r up s1, mget (qTable (tReq t)) s = Some m -> incl seen m ->
    scanLoop now up (qTable (tReq t)) seen (ensureDead s) = (s1, r) -> findLeaf s1 tab key = Some l).
  { intros m seen r up s1 M Inc SL. eapply scan_view with (key' := key) in SL; [|exact N]. rewrite find_ensureDead in SL.
    destruct SL as [->|(_ & -> & l0 & I & Au)]; auto. exfalso. apply Inc in I.
    unfold findLeaf in F. rewrite M in F. apply (sorted_one m key l) in I; auto; [|now apply (proj2 W (qTable (tReq t)))].
    subst l0. now rewrite autoDeletes_auto in Au. }
  assert (RD : forall s1 o, readLeaf now s (qTable (tReq t)) (qKey (tReq t)) = (s1, o) -> findLeaf s1 tab key = Some l).
  { intros s1 o R. pose proof (readLeaf_view _ _ _ _ _ _ tab key N R) as [->|(_ & -> & -> & l0 & F0 & Au)]; auto.
    rewrite F in F0. injection F0 as <-. now rewrite autoDeletes_auto in Au. }
  destruct (isWrite_dec t) as [I|I].
  - pose proof (write_inv _ _ _ _ _ _ I A) as [(-> & _)|(_ & _ & _ & l' & E & _)]; auto.
    destruct (beqb_spec (qTable (tReq t)) tab) as [T|T]; [destruct (beqb_spec (qKey (tReq t)) key) as [K|K]|].
    + assert (Nh : ~ Holder t l) by (apply Hw; auto; split; auto). subst tab key.
      destruct (refused _ _ _ _ _ _ _ I A F IF Nh) as (-> & _). exact F.
    + rewrite E, find_put_other; auto. congruence.
    + rewrite E, find_put_other; auto. congruence.
  - unfold apply in A. destruct (qOp (tReq t)) eqn:O.
    + exfalso. apply I. now left.
    + exfalso. apply I. now right.
    + injection A as <- <-. unfold doMakeTable. destruct (qTable (tReq t)) as [|x q]; auto.
      destruct (mget (x :: q) s) eqn:M; auto. unfold findLeaf in *. rewrite mget_mput.
      destruct (beqb_spec tab (x :: q)) as [->|]; auto. rewrite M in F. discriminate.
    + injection A as <- <-. unfold doDeleteTable. specialize (Ht (or_introl eq_refl)).
      destruct (qTable (tReq t)) as [|x q]; auto. unfold findLeaf in *. rewrite mget_mdel.
      destruct (beqb_spec tab (x :: q)) as [->|]; auto. contradiction.
    + injection A as A. specialize (Ht (or_intror eq_refl)). unfold doRenameTable in A. destruct s as [|p s0]; [discriminate|].
      remember (p :: s0) as s eqn:Es. clear Es.
      destruct (qTable (tReq t)) as [|x q]; [injection A as <- <-; auto|].
      destruct (qNewTable (tReq t)) as [|x' q']; [injection A as <- <-; auto|].
      destruct (beqb_spec (x' :: q') (x :: q)) as [E|E]; [injection A as <- <-; auto|].
      destruct (mget (x' :: q') s) eqn:M; [injection A as <- <-; auto|].
      destruct (mget (x :: q) s) eqn:M'; injection A as <- <-; auto.
      rewrite mget_rename by auto. destruct (beqb_spec tab (x :: q)) as [->|]; [contradiction|].
      destruct (beqb_spec tab (x' :: q')) as [->|]; auto. unfold findLeaf in F. rewrite M in F. discriminate.
    + injection A as A. unfold doDeleteKey in A. destruct (mget (qTable (tReq t)) s) as [m|]; [|injection A as <- <-; auto].
      destruct (readLeaf now s (qTable (tReq t)) (qKey (tReq t))) as (s1, o) eqn:R. specialize (RD _ _ eq_refl).
      destruct o as [l0|]; [|injection A as <- <-; auto].
      assert (DL : (qTable (tReq t), qKey (tReq t)) <> (tab, key) -> findLeaf (delLeaf s1 (qTable (tReq t)) (qKey (tReq t))) tab key = Some l).
      { intros Ne. rewrite find_del. destruct (beqb_spec tab (qTable (tReq t))) as [->|]; cbn [andb]; auto.
        destruct (beqb_spec key (qKey (tReq t))) as [->|]; auto. contradiction. }
      destruct (beqb_spec (qTable (tReq t)) tab) as [T|T]; [destruct (beqb_spec (qKey (tReq t)) key) as [K|K]|].
      * assert (Hn : iLeasor (tInfo t) <> lLeasor l) by (apply Hd; auto; split; auto).
        unfold readLeaf in R. rewrite T, K, F, autoDeletes_auto in R by auto. injection R as <- <-.
        rewrite (inForce_noLease _ _ _ IF) in A.
        destruct (beqb_spec (lLeasor l) (iLeasor (tInfo t))) as [E|_]; [congruence|].
        replace (lUntil l + drift <? qTm (tReq t)) with false in A by lia. injection A as <- <-. auto.
      * assert (X : (qTable (tReq t), qKey (tReq t)) <> (tab, key)) by congruence. specialize (DL X).
        destruct (noLease l0); [injection A as <- <-; auto|].
        destruct (beqb (lLeasor l0) (iLeasor (tInfo t))); [injection A as <- <-; auto|].
        destruct (lUntil l0 + drift <? qTm (tReq t)); injection A as <- <-; auto.
      * assert (X : (qTable (tReq t), qKey (tReq t)) <> (tab, key)) by congruence. specialize (DL X).
        destruct (noLease l0); [injection A as <- <-; auto|].
        destruct (beqb (lLeasor l0) (iLeasor (tInfo t))); [injection A as <- <-; auto|].
        destruct (lUntil l0 + drift <? qTm (tReq t)); injection A as <- <-; auto.
    + injection A as A. apply showKeys_state in A as [->|(m & seen & r & up & M & Inc & A)]; eauto.
    + injection A as A. unfold doReadKey in A. destruct (readLeaf now s (qTable (tReq t)) (qKey (tReq t))) as (s1, o) eqn:R.
      specialize (RD _ _ eq_refl). destruct o; injection A as <- <-; auto.
    + injection A as A. apply rangeScan_state in A as [->|(m & seen & r & up & M & Inc & A)]; eauto.
    + injection A as A. apply prefixScan_state in A as [->|(m & seen & r & up & M & Inc & A)]; eauto.
    + injection A as <- <-. auto.
Qed.

Lemma applyAll_keeps : forall drift tab key l log clock s s' out, WfStore s -> tab <> dead -> findLeaf s tab key = Some l ->
  lLeasor l <> [] -> lUntil l <> 0 -> lAuto l = false -> Forall (Harmless drift tab key l) log ->
  applyAll drift clock s log = Ok (s', out) -> findLeaf s' tab key = Some l.
Proof.
  induction log as [|t log IH]; intros clock s s' out W N F L1 L2 L3 Hh A; cbn [applyAll] in A; [injection A as <- <-; auto|].
  unfold bind in A. destruct (apply drift (hd 0 clock) s t) as [(s1, t1)|] eqn:A1; [|discriminate]. cbn [fst snd] in A.
  destruct (applyAll drift (tl clock) s1 log) as [(s2, o2)|] eqn:A2; [|discriminate]. injection A as <- <-. cbn [fst].
  inversion Hh as [|? ? H1 H2]; subst. eapply IH; [| | | | | | |exact A2]; auto.
  - exact (wf_apply _ _ _ _ _ _ W A1).
  - exact (apply_keeps _ _ _ _ _ _ _ _ _ W N F L1 L2 L3 H1 A1).
Qed.

(** ** Scans *)
Lemma hasPrefix_spec : forall p k, hasPrefix p k = true <-> IsPrefix p k.
Proof.
  induction p as [|x p IH]; intros k; cbn [hasPrefix].
  - split; auto. intros _. now exists k.
  - destruct k as [|y k]; [split; [discriminate|intros (r & E); discriminate]|].
    rewrite andb_true_iff, Z.eqb_eq, IH. split.
    + intros (-> & r & ->). now exists r.
    + intros (r & E). injection E as -> ->. split; auto. now exists r.
Qed.
Lemma geB_spec : forall a b, geB a b = true <-> ~ Blt a b.
Proof. intros a b. unfold geB, Blt. destruct (bcmp a b); split; auto; congruence. Qed.

(** Keys with a prefix stand together from the prefix on. *)
Lemma prefix_gap : forall p k1 k2, ~ Blt k1 p -> hasPrefix p k1 = false -> Blt k1 k2 -> hasPrefix p k2 = false.
Proof.
  unfold Blt. induction p as [|x p IH]; intros k1 k2 G H1 L; [discriminate|].
  destruct k1 as [|y k1]; [exfalso; apply G; reflexivity|]. destruct k2 as [|z k2]; auto. cbn [hasPrefix bcmp] in *.
  destruct (Z.compare_spec y z) as [E|E|E]; try discriminate.
  - subst z. destruct (x =? y) eqn:E1; auto. cbn [andb] in *. apply Z.eqb_eq in E1. subst y. rewrite Z.compare_refl in G. eauto.
  - destruct (Z.compare_spec y x) as [E1|E1|E1]; [|exfalso; now apply G|]; replace (x =? z) with false by lia; reflexivity.
Qed.
Lemma prefix_ge : forall p k, hasPrefix p k = true -> geB k p = true.
Proof.
  induction p as [|x p IH]; intros k H; destruct k as [|y k]; auto; cbn [hasPrefix] in H.
  apply andb_true_iff in H as (E & H). apply Z.eqb_eq in E. subst y. apply IH in H. unfold geB in *. cbn [bcmp].
  now rewrite Z.compare_refl.
Qed.
Lemma prefix_le_eq : forall p k, hasPrefix p k = true -> geB p k = true -> k = p.
Proof.
  induction p as [|x p IH]; intros k H G.
  - destruct k as [|y k]; auto. discriminate.
  - destruct k as [|y k]; [discriminate|]. cbn [hasPrefix] in H. apply andb_true_iff in H as (E & H). apply Z.eqb_eq in E. subst y.
    f_equal. apply IH; auto. unfold geB in *. cbn [bcmp] in G. now rewrite Z.compare_refl in G.
Qed.

Lemma takePrefix_filter : forall p ls, SortedKeys ls -> (forall k l, In (k, l) ls -> ~ Blt k p) ->
  takePrefix p ls = filter (fun kl => hasPrefix p (fst kl)) ls.
Proof.
  unfold SortedKeys. induction ls as [|(k, l) ls IH]; intros S G; cbn [takePrefix filter fst]; auto.
  cbn [map fst] in S. inversion S as [|? ? S1 S2]; subst. destruct (hasPrefix p k) eqn:E.
  - f_equal. apply IH; auto. intros k' l' I. apply (G k' l'). now right.
  - assert (X : forall ls', incl ls' ls -> filter (fun kl : bytes * leaf => hasPrefix p (fst kl)) ls' = []).
    { induction ls' as [|(k', l') ls' IH']; intros Inc; auto. cbn [filter fst].
      rewrite (prefix_gap p k k').
      - apply IH'. intros y I. apply Inc. now right.
      - apply (G k l). now left.
      - exact E.
      - apply (proj1 (Forall_forall _ _) S2). apply (in_map fst _ (k', l')). apply Inc. now left. }
    symmetry. apply X. intros y I; exact I.
Qed.

Lemma sorted_filter : forall A f (m : list (bytes * A)), SortedKeys m -> SortedKeys (filter f m).
Proof.
  unfold SortedKeys. intros A f. induction m as [|kv m IH]; intros H; cbn [filter]; auto.
  cbn [map] in H. inversion H as [|? ? H1 H2]; subst. destruct (f kv); auto. cbn [map]. constructor; auto.
  apply Forall_forall. intros x I. apply in_map_iff in I as (y & <- & I). apply filter_In in I as (I & _).
  apply (proj1 (Forall_forall _ _) H2). now apply in_map.
Qed.

Lemma somes_keys : forall ls, map fst (somes ls) = map fst ls.
Proof. intros. unfold somes. rewrite map_map. reflexivity. Qed.
Lemma somes_in : forall ls k o, In (k, o) (somes ls) <-> exists l, o = Some l /\ In (k, l) ls.
Proof.
  intros ls k o. unfold somes. rewrite in_map_iff. split.
  - intros ((k0, l0) & E & I). cbn [fst snd] in E. injection E as <- <-. eauto.
  - intros (l & -> & I). exists (k, l). auto.
Qed.
Lemma somes_rev : forall ls, rev (somes ls) = somes (rev ls).
Proof. intros. unfold somes. now rewrite map_rev. Qed.

Lemma find_in : forall s tab m k l, WfStore s -> mget tab s = Some m -> (In (k, l) m <-> findLeaf s tab k = Some l).
Proof.
  intros s tab m k l W M. unfold findLeaf. rewrite M. split; [apply sorted_get; now apply (proj2 W tab)|apply get_in].
Qed.

(** ** Saving *)
Lemma postLoad_get : forall order m k, NoDup (map fst order) ->
  exists m', postLoad m (map fst order) (map snd order) = Ok m' /\
    mget k m' = match mget k order with Some v => Some v | None => mget k m end.
Proof.
  induction order as [|(k0, v0) order IH]; intros m k N; cbn [map fst snd postLoad mget].
  - eauto.
  - cbn [map fst] in N. inversion N as [|? ? N1 N2]; subst. destruct (IH (mput k0 v0 m) k N2) as (m' & E & G).
    exists m'. split; auto. rewrite G, mget_mput. destruct (beqb_spec k k0) as [->|]; auto.
    destruct (mget k0 order) eqn:E0; auto. exfalso. apply N1. apply get_in in E0. now apply (in_map fst) in E0.
Qed.
Lemma mget_perm : forall A (m m' : list (bytes * A)) k, NoDup (map fst m) -> Permutation m m' -> mget k m' = mget k m.
Proof.
  intros A m m' k N P. induction P as [|(k0, v0) m m' P IH|(k0, v0) (k1, v1) m|m m1 m' P1 IH1 P2 IH2].
  - reflexivity.
  - cbn [mget map fst] in *. inversion N; subst. rewrite IH; auto.
  - cbn [mget map fst] in *. inversion N as [|? ? N1 N2]; subst.
    destruct (beqb_spec k k1) as [E1|]; destruct (beqb_spec k k0) as [E0|]; auto; exfalso; apply N1; left; congruence.
  - rewrite IH2, IH1; auto. eapply Permutation_NoDup; [|exact N]. now apply Permutation_map.
Qed.
Lemma sorted_nodup : forall A (m : list (bytes * A)), SortedKeys m -> NoDup (map fst m).
Proof.
  unfold SortedKeys. intros A m. induction (map fst m) as [|k ks IH]; intros H; [constructor|].
  inversion H as [|? ? H1 H2]; subst. constructor; auto. intros I. apply (Blt_irrefl k).
  now apply (proj1 (Forall_forall _ _) H2).
Qed.
(** Sorted maps with the same contents are the same. *)
Lemma sorted_ext : forall A (m m' : list (bytes * A)), SortedKeys m -> SortedKeys m' -> (forall k, mget k m = mget k m') -> m = m'.
Proof.
  unfold SortedKeys. intros A. induction m as [|(k, v) m IH]; intros m' S S' E.
  - destruct m' as [|(k', v') m']; auto. specialize (E k'). cbn [mget] in E. rewrite beqb_refl in E. discriminate.
  - cbn [map fst] in S. inversion S as [|? ? S1 S2]; subst.
    destruct m' as [|(k', v') m']; [specialize (E k); cbn [mget] in E; rewrite beqb_refl in E; discriminate|].
    cbn [map fst] in S'. inversion S' as [|? ? S1' S2']; subst.
    assert (K : k = k').
    { pose proof (E k) as Ek. pose proof (E k') as Ek'. cbn [mget] in Ek, Ek'. rewrite beqb_refl in Ek, Ek'.
      destruct (beqb_spec k k') as [->|Ne]; auto. exfalso.
      assert (I1 : Blt k' k). { symmetry in Ek. apply get_in in Ek. apply (proj1 (Forall_forall _ _) S2'). now apply (in_map fst) in Ek. }
      destruct (beqb_spec k' k) as [->|_]; [contradiction|].
      assert (I2 : Blt k k'). { apply get_in in Ek'. apply (proj1 (Forall_forall _ _) S2). now apply (in_map fst) in Ek'. }
      apply (Blt_irrefl k). eapply Blt_trans; eauto. }
    subst k'. pose proof (E k) as Ek. cbn [mget] in Ek. rewrite beqb_refl in Ek. injection Ek as ->. f_equal.
    apply IH; auto. intros k0. specialize (E k0). cbn [mget] in E. destruct (beqb_spec k0 k) as [E0|]; auto. rewrite E0.
    destruct (mget k m) eqn:G1.
    + apply get_in, (in_map fst) in G1. exfalso. apply (Blt_irrefl k). now apply (proj1 (Forall_forall _ _) S2).
    + destruct (mget k m') eqn:G2; auto. apply get_in, (in_map fst) in G2. exfalso. apply (Blt_irrefl k).
      now apply (proj1 (Forall_forall _ _) S2').
Qed.
Lemma postLoad_sorted : forall ks vs m m', SortedKeys m -> postLoad m ks vs = Ok m' -> SortedKeys m'.
Proof.
  induction ks as [|k ks IH]; intros vs m m' S H; destruct vs as [|v vs]; cbn [postLoad] in H; try discriminate;
    try (injection H as <-; auto). eapply IH; [|exact H]. now apply sorted_mput.
Qed.

Lemma mergeTable_get : forall from into k, NoDup (map fst from) ->
  mget k (mergeTable into from) = match mget k from with Some l => Some l | None => mget k into end.
Proof.
  induction from as [|(k0, l0) from IH]; intros into k N; cbn [mergeTable mget]; auto.
  cbn [map fst] in N. inversion N as [|? ? N1 N2]; subst. rewrite IH, mget_mput by auto.
  destruct (beqb_spec k k0) as [->|]; auto. destruct (mget k0 from) eqn:E; auto.
  exfalso. apply N1. apply get_in in E. now apply (in_map fst) in E.
Qed.
Lemma merge_get : forall r s tab key, NoDup (map fst r) -> (forall t m, In (t, m) r -> NoDup (map fst m)) ->
  findLeaf (merge s r) tab key = match findLeaf r tab key with Some l => Some l | None => findLeaf s tab key end.
Proof.
  induction r as [|(name, tb) r IH]; intros s tab key N NT; cbn [merge]; auto.
  cbn [map fst] in N. inversion N as [|? ? N1 N2]; subst. rewrite IH; auto; [|intros t m I; apply (NT t m); now right].
  pose proof (NT name tb (or_introl eq_refl)) as NTb.
  assert (E : findLeaf (match mget name s with
             | None => mput name (mergeTable [] tb) s
             | Some prior => mput name (mergeTable prior tb) s end) tab key =
             if beqb tab name then match mget key tb with Some l => Some l | None => findLeaf s tab key end else findLeaf s tab key).
  { unfold findLeaf. destruct (mget name s) as [prior|] eqn:M; rewrite mget_mput; destruct (beqb_spec tab name) as [->|]; auto;
      rewrite mergeTable_get, M by auto; auto. }
  rewrite E. unfold findLeaf. cbn [mget]. destruct (beqb_spec tab name) as [->|]; auto.
  destruct (@mget (list (bytes * leaf)) name r) eqn:M.
  - exfalso. apply N1. apply get_in in M. now apply (in_map fst) in M.
  - unfold table in *. rewrite M. reflexivity.
Qed.
