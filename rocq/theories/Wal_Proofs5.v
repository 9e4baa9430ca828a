(** Damaged files, syncing, snapshots, lookups. *)
From Coq Require Import List ZArith Lia Bool.
From Verif Require Import Base Rle_Model Rle_Spec Rle_Proofs Wal_Model Wal_Spec Wal_Proofs Wal_Proofs2 Wal_Proofs3 Wal_Proofs4.
Import ListNotations.
Open Scope Z_scope.

Section W.
Context (c : codec) (ok : codec_ok c).
Notation image := (image c).
Notation parsOf := (parsOf c).
Notation parImage := (parImage c).
Notation linked := (linked c).
Notation slotted := (slotted c).
Notation hashed := (hashed c).
Notation goodJ := (goodJ c).
Notation good := (good c).

(** ** Damage *)

Lemma good_slotted : forall w d j, goodJ w d j -> Forall slotted (parsOf 0 [] (raftLog w)).
Proof. intros w d j G. rewrite <- (g_pars _ _ _ _ G). apply (g_slot _ _ _ _ G). Qed.
Lemma good_parImage : forall w d j, goodJ w d j -> dPar d = parImage (parsOf 0 [] (raftLog w)).
Proof. intros w d j G. rewrite <- (g_pars _ _ _ _ G). apply (g_par _ _ _ _ G). Qed.

Lemma wal_damage : forall w d f w', good w d -> noCollision c f (entries w) -> openWal c (mkD f (dPar d)) = Ok w' ->
  exists n, entries w' = firstn n (entries w).
Proof.
  intros w d f w' [G _] Hnc H.
  destruct (open_damaged c ok [] (raftLog w) (mkD f (dPar d)) w' _ _ (linked_t c _ _ _ G) (good_nonneg c _ _ _ G)
     (good_slotted _ _ _ G) (good_parImage _ _ _ G) ltac:(exists f; reflexivity) Hnc H) as (n & _ & E & _).
  exists n. unfold entries. rewrite E, firstn_map. reflexivity.
Qed.

Lemma hashed_split : forall ps log from, hashed ps from log \/
  exists a x b, log = a ++ x :: b /\ hashed ps from a /\
    forall p, nth_error ps (from + length a) = Some p -> pHash p <> b3 c (snd x).
Proof.
  intros ps. induction log as [|x log IH]; intros from.
  - left. intros j x H. destruct j; discriminate.
  - destruct (nth_error ps from) as [p|] eqn:En.
    + destruct (list_eq_dec Z.eq_dec (pHash p) (b3 c (snd x))) as [Eh|Eh].
      * destruct (IH (S from)) as [H|(a & y & b & -> & Ha & Hy)].
        -- left. intros [|j] z Hz; cbn [nth_error] in Hz.
           ++ injection Hz as <-. rewrite Nat.add_0_r. eauto.
           ++ replace (from + S j)%nat with (S from + j)%nat by lia. exact (H j z Hz).
        -- right. exists (x :: a), y, b. split; [reflexivity|]. split.
           ++ intros [|j] z Hz; cbn [nth_error] in Hz.
              ** injection Hz as <-. rewrite Nat.add_0_r. eauto.
              ** replace (from + S j)%nat with (S from + j)%nat by lia. exact (Ha j z Hz).
           ++ cbn [length]. replace (from + S (length a))%nat with (S from + length a)%nat by lia. exact Hy.
      * right. exists [], x, log. split; [reflexivity|]. split; [intros j z Hz; destruct j; discriminate|].
        cbn [length]. rewrite Nat.add_0_r. intros q Hq. congruence.
    + right. exists [], x, log. split; [reflexivity|]. split; [intros j z Hz; destruct j; discriminate|].
      cbn [length]. rewrite Nat.add_0_r. intros q Hq. congruence.
Qed.
Lemma par_damage : forall w d p w', good w d -> openWal c (mkD (dWal d) p) = Ok w' -> entries w' = entries w.
Proof.
  intros w d p w' [G _] H. unfold openWal in H. cbn [dWal dPar] in H.
  destruct (newParLog c p) as [ps|]; [|discriminate]. cbn [bind] in H.
  pose proof (linked_t c _ _ _ G) as Hl. pose proof (good_nonneg c _ _ _ G) as Hb.
  pose proof (g_wal _ _ _ _ G) as Ew. rewrite app_nil_r in Ew.
  destruct (dWal d) as [|z f] eqn:Ed.
  { injection H as <-. unfold entries. destruct (raftLog w) as [|x l] eqn:El; [reflexivity|]. exfalso.
    refine (image_ne c ok _ _ _ _ Hl (eq_sym Ew)). discriminate. }
  rewrite Ew in H. unfold entries.
  destruct (hashed_split ps (raftLog w) 0) as [Hh|(a & x & b & El & Ha & Hx)].
  - destruct (load_prefix c ok (raftLog w) [] (fresh ps) _ _ Hl Hb Hh ltac:(repeat split)) as (w1 & A1 & A2 & _).
    rewrite app_nil_r in A1. rewrite A1 in H. cbn [loadPath] in H.
    assert (EE : loadEntry c (image [] (raftLog w)) (parlog w1) (raftLog w1) (length (image [] (raftLog w))) = Ok None).
    { unfold loadEntry. rewrite nextframe_eof. reflexivity. }
    rewrite EE in H. cbn [bind] in H. injection H as <-. cbn [raftLog]. rewrite A2. reflexivity.
  - exfalso. rewrite El in *. rewrite image_app in H. cbn [app] in H. pose proof Hl as Hl0.
    apply linked_app in Hl as [Hla Hlx].
    destruct (load_prefix c ok a (image a (x :: b)) (fresh ps) _ _ Hla Hb Ha ltac:(repeat split)) as (w1 & A1 & A2 & A3 & _).
    rewrite A1 in H. cbn [loadPath] in H. rewrite A2, A3 in H. cbn [fresh parlog] in H.
    destruct x as [e be]. cbn [Wal_Proofs.linked] in Hlx. destruct Hlx as (_ & _ & _ & _ & -> & Hf & _).
    cbn [Wal_Proofs.image snd] in H. rewrite (loadEntry_rec c ok) in H by exact Hf.
    cbn [Nat.add snd] in Hx. destruct (nth_error ps (length a)) as [q|]; [|discriminate].
    destruct (beqb (b3 c (encE c e)) (pHash q)) eqn:Eb; [|discriminate].
    apply beqb_eq in Eb. exact (Hx q eq_refl (eq_sym Eb)).
Qed.

(** ** Snapshots *)

Lemma snapshot_crash : forall w d i t ops r d' w', good w d -> installedSnapshot i t w = (ops, r) ->
  powerLoss ops None d d' -> noCollision c (dWal d') (entries w) -> openWal c d' = Ok w' ->
  exists n, entries w' = firstn n (entries w).
Proof.
  intros w d i t ops r d' w' GG H Hp Hnc Ho.
  assert (Old : dPar d' = dPar d -> exists n, entries w' = firstn n (entries w)).
  { intros E. destruct d' as [f p]. cbn [dPar dWal] in *. subst p. exact (wal_damage _ _ _ _ GG Hnc Ho). }
  assert (New : d' = mkD [] [] -> exists n, entries w' = firstn n (entries w)).
  { intros ->. cbn in Ho. injection Ho as <-. exists O. reflexivity. }
  unfold installedSnapshot in H. cbn [bindM emit ret fst snd app] in H. injection H as <- _. rewrite app_nil_r in Hp.
  inversion Hp; subst; try contradiction. { apply Old. reflexivity. }
  match goal with X : powerLoss (WSync :: _) _ _ d' |- _ => inversion X; subst; try contradiction end. { apply Old. reflexivity. }
  match goal with X : powerLoss _ None _ d' |- _ => rename X into Hq end.
  match type of Hq with powerLoss _ _ ?dd _ => set (d1 := dd) in * end.
  assert (E1 : dWal d1 = []) by reflexivity. assert (E2 : dPar d1 = dPar d) by reflexivity. clearbody d1.
  destruct (parlog w) as [|p0 ps].
  { apply pl_end in Hq as [E _]. apply Old. congruence. }
  inversion Hq; subst; try contradiction. { apply Old. exact E2. }
  match goal with X : powerLoss (PSync :: _) _ _ d' |- _ => inversion X; subst; try contradiction end.
  { apply New. match goal with X : survives None _ _ |- _ => cbn in X; rewrite X end. rewrite E1. reflexivity. }
  match goal with X : powerLoss [] _ _ d' |- _ => apply pl_end in X as [Ep Ew] end. cbn in Ep, Ew. apply New.
  destruct d' as [f p]. cbn in Ep, Ew. congruence.
Qed.

(** ** Nothing is left to sync *)

Lemma synced_save : forall e w ops w', saveRaftLogEntry c e w = (ops, Ok w') -> synced true true true ops = true.
Proof.
  intros e w ops w' H. unfold saveRaftLogEntry, saveEntry in H. repeat mok H. subst.
  apply ret_ok in H as [_ ->]. unfold append1 in *. destruct (slot _ _); [|discriminate].
  match goal with X : emit _ = _ |- _ => injection X as <- end. reflexivity.
Qed.
Lemma synced_saveAll : forall es w ops w' rest, saveAll c es w = (ops, Ok w') ->
  (forall x, synced x true true rest = true) -> forall x, synced x true true (ops ++ rest) = true.
Proof.
  induction es as [|e es IH]; intros w ops w' rest H Hr x; cbn [saveAll] in H.
  - injection H as <- _. apply Hr.
  - mok H. subst. rewrite <- app_assoc. pose proof (IH _ _ _ _ H Hr) as Hx. clear H IH.
    unfold saveEntry in H0. repeat mok H0. subst.
    apply ret_ok in H0 as [_ ->]. unfold append1 in *. destruct (slot _ _); [|discriminate].
    match goal with X : emit _ = _ |- _ => injection X as <- end. cbn [app synced]. apply Hx.
Qed.
Lemma synced_compact : forall cfg k w d ops w', good w d -> compact c cfg k w = (ops, Ok w') ->
  forall x, x = true -> synced x true true ops = true.
Proof.
  intros cfg k w d ops w' G H x ->. unfold compact in H. mok H. mok H. mok H. apply ret_ok in H as [_ ->]. subst.
  rewrite app_nil_r. cbn [app].
  destruct (compactGo_cases c ok _ _ _ _ _ G H1) as [[-> _]|[[_ X]|(w1 & p & f & _ & -> & _)]]; [reflexivity|discriminate|reflexivity].
Qed.
Lemma synced_app : forall a b x y z, synced x y z a = true -> synced true true true b = true -> synced x y z (a ++ b) = true.
Proof.
  induction a as [|o a IH]; intros b x y z H Hb; cbn [app synced] in *.
  - destruct x, y, z; try discriminate. exact Hb.
  - destruct o; apply IH; auto.
Qed.
Lemma synced_rewrite : forall cfg k kc oc es commit w ops w', rewrite c cfg k kc oc es commit w = (ops, Ok w') ->
  synced true true true ops = true.
Proof.
  intros cfg k kc oc es commit w ops w' H. unfold rewrite in H.
  apply bindM_ok in H as (o1 & w1 & o2 & H1 & H2 & ->).
  apply bindM_ok in H2 as (o3 & w2 & o4 & H3 & H4 & ->).
  apply bindM_ok in H4 as (o5 & [] & o6 & H5 & H6 & ->).
  apply ret_ok in H6 as [_ ->]. injection H5 as <-. rewrite app_nil_r.
  assert (Sx : forall x, synced x true true (o3 ++ (if negb (oc =? 0)%nat && (fdpos w2 <? fdpos w)%nat then [WTrunc (fdpos w2)] else []) ++ [WSync]) = true).
  { eapply synced_saveAll; [eassumption|]. intros y. destruct (_ && _); reflexivity. }
  destruct (oc =? 0)%nat.
  - injection H1 as <- _. apply Sx.
  - unfold cut in H1. destruct (nth_error _ _); [|discriminate]. repeat mok H1. apply ret_ok in H1 as [_ ->]. subst.
    cbn [app]. rewrite ?app_nil_r. destruct (kc =? length (parlog w))%nat; cbn [app synced]; apply Sx.
Qed.
Lemma synced_overwrite : forall cfg i es isLeader commit applied w d lim ops w', good w d -> limOk c lim w ->
  Forall (okEntry c) es -> consecutive (i + 1) es -> ((kept w i < length (raftLog w))%nat -> within lim (kept w i)) ->
  overwriteEntries c cfg i es isLeader commit applied d w = (ops, Ok w') -> synced true true true ops = true.
Proof.
  intros cfg i es isLeader commit applied w d lim ops w' GG HL Hok Hc Hw H.
  unfold overwriteEntries in H. mok H. subst. cbn [app].
  pose proof (plan_spec c w d i es GG Hc) as HP.
  destruct (plan i es w) as [[[[k es'] kc] oc]|].
  2: { injection H as <- _. reflexivity. }
  destruct HP as (Hn & -> & Eoc & Hlt). mok H. subst.
  assert (Ho : okAll c (sKeep (content w) i) (filter (fun e => BaseC (logIndex w) <? eIndex e) es)).
  { apply okAll_ok. apply Forall_forall. intros e He. apply filter_In in He as [He _]. rewrite Forall_forall in Hok. auto. }
  destruct (rewrite_good c ok cfg w d lim i k (Z.to_nat kc) (Z.to_nat oc) _ commit _ _ GG HL Ho ltac:(intros X; split; [auto|exact (Hlt X)]) Eoc H1) as (A1 & _).
  pose proof (synced_rewrite _ _ _ _ _ _ _ _ _ H1) as S1.
  rewrite H1 in H. cbn [fst] in H. apply synced_app; auto.
  destruct (negb (noLogCompaction cfg) && _).
  2: { injection H as <- _. reflexivity. }
  unfold maybeCompact in H. destruct (noLogCompaction cfg). { injection H as <- _. reflexivity. }
  destruct (_ <? applied). 2: { injection H as <- _. reflexivity. }
  eapply synced_compact; [|exact H|reflexivity]. apply good_prevApplied. exact A1.
Qed.
Lemma synced_snapshot : forall i t w ops w', installedSnapshot i t w = (ops, Ok w') -> synced true true true ops = true.
Proof. intros i t w ops w' H. unfold installedSnapshot in H. cbn in H. injection H as <- _. destruct (parlog w); reflexivity. Qed.

(** ** Lookups *)

Lemma good_entry_index : forall w d, good w d -> forall j e, nth_error (entries w) j = Some e -> eIndex e = BaseC (logIndex w) + 1 + Z.of_nat j.
Proof.
  intros w d [G _]. pose proof (good_consecutive c _ _ _ G) as H. revert H. generalize (entries w) as es. generalize (BaseC (logIndex w) + 1) as b.
  intros b es. revert b. induction es as [|x es IH]; intros b H [|j] e Hj; cbn in Hj; try discriminate; cbn [consecutive] in H; destruct H as [H1 H2].
  - injection Hj as ->. lia.
  - rewrite (IH _ H2 _ _ Hj). lia.
Qed.
Lemma getEntry_ok : forall w d idx e, good w d -> (getEntry idx w = Some e <-> In e (entries w) /\ eIndex e = idx).
Proof.
  intros w d idx e GG. pose proof GG as [G _]. unfold getEntry.
  destruct (raftLog w) as [|[e0 b0] l] eqn:El.
  { unfold entries. rewrite El. cbn. split; [discriminate|tauto]. }
  rewrite <- El. destruct (good_first c _ _ _ _ _ _ G El) as [He0 _]. rewrite He0.
  destruct (Z.ltb_spec idx (BaseC (logIndex w) + 1)).
  - split; [discriminate|]. intros [Hin Hi]. apply In_nth_error in Hin as (j & Hj). apply (good_entry_index _ _ GG) in Hj. lia.
  - assert (Em : option_map fst (nth_error (raftLog w) (Z.to_nat (idx - (BaseC (logIndex w) + 1)))) = nth_error (entries w) (Z.to_nat (idx - (BaseC (logIndex w) + 1)))).
    { unfold entries. rewrite nth_error_map. reflexivity. }
    rewrite Em. split.
    + intros Hn. pose proof (good_entry_index _ _ GG _ _ Hn). split; [eapply nth_error_In; exact Hn|lia].
    + intros [Hin Hi]. apply In_nth_error in Hin as (j & Hj). pose proof (good_entry_index _ _ GG _ _ Hj).
      replace (Z.to_nat (idx - (BaseC (logIndex w) + 1))) with j by lia. exact Hj.
Qed.
Lemma getAll_ok : forall w d idx, good w d -> 1 <= idx ->
  getAllEntriesFrom idx w = Ok (if match entries w with [] => true | _ => sBase (content w) <? idx end
                                then (filter (fun e => idx <=? eIndex e) (entries w), false) else ([], true)).
Proof.
  intros w d idx [G _] Hi. unfold getAllEntriesFrom. replace (idx <? 1) with false by (symmetry; apply Z.ltb_ge; lia).
  unfold entries at 1. cbn [content sBase].
  destruct (raftLog w) as [|[e0 b0] l] eqn:El; [unfold entries; rewrite El; reflexivity|]. cbn [map]. rewrite <- El.
  destruct (good_first c _ _ _ _ _ _ G El) as [He0 _]. rewrite He0.
  destruct (Z.ltb_spec idx (BaseC (logIndex w) + 1)), (Z.ltb_spec (BaseC (logIndex w)) idx); try lia; [reflexivity|].
  rewrite filter_ge, (filter_gt _ _ _ (good_consecutive c _ _ _ G)). unfold entries. rewrite skipn_map. do 4 f_equal. lia.
Qed.
Lemma getLogPast_ok : forall w d x, good w d -> sBase (content w) <= x ->
  getLogPast x w = Ok (filter (fun e => x <? eIndex e) (entries w)).
Proof.
  intros w d x [G _] Hx. cbn [content sBase] in Hx. unfold getLogPast.
  destruct (raftLog w) as [|[e0 b0] l] eqn:El; [unfold entries; rewrite El; reflexivity|]. rewrite <- El.
  destruct (good_first c _ _ _ _ _ _ G El) as [He0 _]. rewrite He0.
  rewrite (filter_gt _ _ _ (good_consecutive c _ _ _ G)). pose proof (g_lli _ _ _ _ G).
  destruct (Z.ltb_spec (lli w) x).
  - rewrite skipn_all2; [reflexivity|]. rewrite entries_len. lia.
  - destruct (Z.ltb_spec (x + 1) (BaseC (logIndex w) + 1)); [lia|]. unfold entries. rewrite skipn_map. do 3 f_equal. lia.
Qed.
End W.
