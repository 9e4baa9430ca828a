(** Properties of the write-ahead log: C35, C52, C53 and C55. *)
From Coq Require Import List ZArith Lia Bool.
From Verif Require Import Base Rle_Model Rle_Spec Rle_Proofs Wal_Model Wal_Spec Wal_Proofs Wal_Proofs2 Wal_Proofs3 Wal_Proofs4 Wal_Proofs5.
Import ListNotations.
Open Scope Z_scope.

(** ** A codec for the examples *)

Definition toyHash (b : bytes) : Z := fold_left (fun a x => a * 257 + x + 1) b 0.
Definition toy : codec := {|
  encE := fun e => eTerm e :: eIndex e :: ePrevIndex e :: ePrevTerm e :: eRest e;
  decE := fun b => match b with t :: i :: pi :: pt :: r => Some (mkE t i pi pt r) | _ => None end;
  encS := fun s => Z.of_nat (length (fst s)) :: fst s ++ snd s;
  decS := fun b => match b with n :: r => Some (firstn (Z.to_nat n) r, skipn (Z.to_nat n) r) | _ => None end;
  encP := fun p => pOffset p :: pLen0 p :: pLen2 p :: pIndex p :: pTerm p :: Z.of_nat (length (pRest p)) :: pRest p ++ pHash p;
  decP := fun b => match b with o :: a :: l :: i :: t :: n :: r =>
            Some (mkP o a l i t (firstn (Z.to_nat n) r) (skipn (Z.to_nat n) r)) | _ => None end;
  b3 := fun b => [toyHash b];
  crc := fun b => [toyHash b; 0; 0; 0; 0; 0; 0; 0] |}.

Example toy_ok : codec_ok toy.
Proof.
  constructor.
  - intros []. reflexivity.
  - intros [a b]. cbn. rewrite Nat2Z.id, firstn_app, Nat.sub_diag, firstn_all, skipn_app, Nat.sub_diag, skipn_all. cbn. rewrite app_nil_r. reflexivity.
  - intros []. cbn. rewrite Nat2Z.id, firstn_app, Nat.sub_diag, firstn_all, skipn_app, Nat.sub_diag, skipn_all. cbn. rewrite app_nil_r. reflexivity.
  - intros a b. unfold fits. cbn. lia.
  - intros p. cbn [toy encP length]. lia.
  - reflexivity.
Qed.

(** the state and disk after a call *)
Definition after (s : wal * disk) (f : wal -> disk -> M wal) : wal * disk :=
  let (ops, r) := f (fst s) (snd s) in
  (match r with Ok w => w | Panic => fst s end, applyAll ops (snd s)).
Definition doSave (e : entry) (w : wal) (d : disk) : M wal := saveRaftLogEntry toy e w.
Definition doOver (cfg : config) (i : Z) (es : list entry) (applied : Z) (w : wal) (d : disk) : M wal :=
  overwriteEntries toy cfg i es false 0 applied d w.
Definition doSnap (i t : Z) (w : wal) (d : disk) : M wal := installedSnapshot i t w.
Definition doOpen (w : wal) (d : disk) : M wal := lift (openWal toy d).
Definition start : wal * disk := (fresh [], mkD [] []).
Definition opens (d : disk) : bool := match openWal toy d with Ok _ => true | Panic => false end.
Definition opened (d : disk) : list entry := match openWal toy d with Ok w => entries w | Panic => [] end.
Definition succeeds (s : wal * disk) (f : wal -> disk -> M wal) : bool := match snd (f (fst s) (snd s)) with Ok _ => true | Panic => false end.

Definition en (t i x : Z) : entry := mkE t i 0 0 [x].
Definition cfg0 : config := mkCfg false 1000000.
Definition s1 := after start (doSave (en 1 1 7)).
Definition s2 := after s1 (doSave (en 1 2 8)).
Definition s3 := after s2 (doSave (en 2 3 9)).


Lemma ok_en : forall t i x, okEntry toy (en t i x).
Proof. intros t i x a b. unfold fits. cbn. lia. Qed.
Lemma after_save : forall s e lim, reach toy cfg0 (fst s) (snd s) lim -> okEntry toy e -> succeeds s (doSave e) = true ->
  reach toy cfg0 (fst (after s (doSave e))) (snd (after s (doSave e))) lim.
Proof.
  intros s e lim R O S. unfold succeeds in S. unfold after. destruct (doSave e (fst s) (snd s)) as [ops [w|]] eqn:E; cbn in S; [|discriminate S].
  cbn [fst snd]. eapply reach_save; eassumption.
Qed.
Lemma after_open : forall s lim, reach toy cfg0 (fst s) (snd s) lim -> succeeds s doOpen = true ->
  reach toy cfg0 (fst (after s doOpen)) (snd (after s doOpen))
    (match raftLog (fst (after s doOpen)) with [] => None | l => Some (Z.of_nat (length l)) end).
Proof.
  intros s lim R S. unfold succeeds in S. unfold after. unfold doOpen, lift in *. destruct (openWal toy (snd s)) as [w|] eqn:E; cbn in S; [|discriminate S].
  cbn [fst snd applyAll fold_left]. eapply reach_reopen; eassumption.
Qed.
Lemma after_compact : forall s k lim, reach toy cfg0 (fst s) (snd s) lim -> let f := fun w _ => compact toy cfg0 k w in
  succeeds s f = true ->
  reach toy cfg0 (fst (after s f)) (snd (after s f))
    (limAfter lim (fst s) (sLastIndex (content (fst s))) (fst (f (fst s) (snd s))) (fst (after s f))).
Proof.
  intros s k lim R f S. unfold succeeds in S. unfold after, f in *. destruct (compact toy cfg0 k (fst s)) as [ops [w|]] eqn:E; cbn in S; [|discriminate S].
  cbn [fst snd]. eapply reach_compact; eassumption.
Qed.
Lemma reach_s2 : reach toy cfg0 (fst s2) (snd s2) None.
Proof.
  apply (after_save s1); [|apply ok_en|vm_compute; reflexivity].
  apply (after_save start); [apply reach_new|apply ok_en|vm_compute; reflexivity].
Qed.
Lemma reach_s3 : reach toy cfg0 (fst s3) (snd s3) None.
Proof. apply (after_save s2); [apply reach_s2|apply ok_en|vm_compute; reflexivity]. Qed.
Lemma reach_s3' : forall cfg, reach toy cfg (fst s3) (snd s3) None.
Proof.
  intros cfg.
  assert (A : forall s e, reach toy cfg (fst s) (snd s) None -> okEntry toy e -> succeeds s (doSave e) = true ->
    reach toy cfg (fst (after s (doSave e))) (snd (after s (doSave e))) None).
  { intros s e R O S. unfold succeeds in S. unfold after. destruct (doSave e (fst s) (snd s)) as [ops [w|]] eqn:E; cbn in S; [|discriminate S].
    cbn [fst snd]. eapply reach_save; eassumption. }
  apply (A s2); [|apply ok_en|vm_compute; reflexivity]. apply (A s1); [|apply ok_en|vm_compute; reflexivity].
  apply (A start); [apply reach_new|apply ok_en|vm_compute; reflexivity].
Qed.
(** all pieces of a file, to check [noCollision] by computing *)
Definition pieces (f : bytes) : list bytes :=
  flat_map (fun i => map (fun n => firstn n (skipn i f)) (seq 0 (S (length f)))) (seq 0 (S (length f))).
Lemma piece_in : forall b f, piece b f -> In b (pieces f).
Proof.
  intros b f (x & y & ->). unfold pieces. apply in_flat_map. exists (length x). split.
  - apply in_seq. rewrite !app_length. lia.
  - apply in_map_iff. exists (length b). split.
    + rewrite skipn_app, skipn_all, Nat.sub_diag. cbn [app skipn]. rewrite firstn_app, firstn_all, Nat.sub_diag. apply app_nil_r.
    + apply in_seq. rewrite !app_length. lia.
Qed.
Definition noCollisionB (f : bytes) (log : list entry) : bool :=
  forallb (fun b => forallb (fun e => negb (toyHash b =? toyHash (encE toy e)) || beqb b (encE toy e)) log) (pieces f).
Lemma noCollision_check : forall f log, noCollisionB f log = true -> noCollision toy f log.
Proof.
  intros f log H e b He Hp Hh. unfold noCollisionB in H. rewrite forallb_forall in H. specialize (H b (piece_in _ _ Hp)).
  rewrite forallb_forall in H. specialize (H e He). apply orb_true_iff in H as [H|H].
  - apply negb_true_iff, Z.eqb_neq in H. exfalso. apply H. cbn [toy b3] in Hh. injection Hh. auto.
  - apply beqb_eq. exact H.
Qed.

(** ** C35: crashes *)

(** The machine dies at any point while an entry is appended to a log with any history.
    When the log opens again, it holds what it held before, or that and the entry, in
    which case the append was completely written. *)
Theorem C35_append_crash : forall c cfg w d lim e ops r d', codec_ok c -> reach c cfg w d lim -> okEntry c e ->
  saveRaftLogEntry c e w = (ops, r) -> powerLoss ops None d d' ->
  match openWal c d' with
  | Panic => True
  | Ok w' => (d' = d /\ entries w' = entries w) \/
             (d' = applyAll ops d /\ (exists w1, r = Ok w1) /\ entries w' = entries w ++ [stamp (content w) e])
  end.
Proof. intros. eapply append_crash; eassumption. Qed.
Print Assumptions C35_append_crash.
Example C35_append_crash_ex : let (ops, r) := saveRaftLogEntry toy (en 2 4 5) (fst s3) in
  powerLoss ops None (snd s3) (applyAll ops (snd s3)) /\ opens (applyAll ops (snd s3)) = true /\
  map eIndex (opened (applyAll ops (snd s3))) = [1; 2; 3; 4] /\
  (* cut short in the log file, then in the parlog *)
  killed ops (snd s3) (apply (WWrite 36 [196; 5; 2]) (snd s3)) /\ opens (apply (WWrite 36 [196; 5; 2]) (snd s3)) = false.
Proof.
  destruct (saveRaftLogEntry toy (en 2 4 5) (fst s3)) as [ops r] eqn:E.
  assert (E1 : ops = fst (saveRaftLogEntry toy (en 2 4 5) (fst s3))) by (rewrite E; reflexivity). clear E.
  assert (K : killed ops (snd s3) (applyAll ops (snd s3))).
  { clear E1. generalize (snd s3). induction ops as [|o ops IH]; intros d; cbn; [constructor|apply killed_later, IH]. }
  split; [apply killed_powerLoss; exact K|]. clear K. subst ops. split; [vm_compute; reflexivity|]. split; [vm_compute; reflexivity|].
  split; [|vm_compute; reflexivity].
  match goal with |- killed ?l _ _ => let l' := eval vm_compute in l in change l with l' end.
  match goal with |- killed (WWrite 36 ?b :: ?l) ?d _ => exact (killed_wal 36 b 3 l d) end.
Qed.

(** Only the process dies: what was handed to the operating system survives. *)
Theorem C35_append_killed : forall c cfg w d lim e ops r d', codec_ok c -> reach c cfg w d lim -> okEntry c e ->
  saveRaftLogEntry c e w = (ops, r) -> killed ops d d' ->
  match openWal c d' with
  | Panic => True
  | Ok w' => (d' = d /\ entries w' = entries w) \/
             (d' = applyAll ops d /\ (exists w1, r = Ok w1) /\ entries w' = entries w ++ [stamp (content w) e])
  end.
Proof. intros. eapply append_crash; try eassumption. apply killed_powerLoss. assumption. Qed.
Print Assumptions C35_append_killed.

(** A completed append is on disk, nothing is left to sync, and the log opens with it. *)
Theorem C35_append_durable : forall c cfg w d lim e ops w', codec_ok c -> reach c cfg w d lim -> okEntry c e ->
  saveRaftLogEntry c e w = (ops, Ok w') ->
  synced true true true ops = true /\
  exists w2, openWal c (applyAll ops d) = Ok w2 /\ entries w2 = entries w ++ [stamp (content w) e].
Proof.
  intros c cfg w d lim e ops w' ok R He H. split; [eapply synced_save; eassumption|].
  destruct (reach_good c ok _ _ _ _ R) as [G L]. destruct (save_step c ok _ _ _ _ _ _ G L He H) as (G' & _ & E).
  destruct (reopen_step c ok _ _ G') as (w2 & A & _ & B & _). exists w2. split; [exact A|].
  rewrite B. apply (f_equal sLog) in E. exact E.
Qed.
Print Assumptions C35_append_durable.
Example C35_append_durable_ex : exists w', saveRaftLogEntry toy (en 2 4 5) (fst s3) = (fst (saveRaftLogEntry toy (en 2 4 5) (fst s3)), Ok w').
Proof. eexists. vm_compute. reflexivity. Qed.

(** Any state of the log reached by completed calls is on disk. *)
Theorem C35_reopen : forall c cfg w d lim, codec_ok c -> reach c cfg w d lim ->
  exists w', openWal c d = Ok w' /\ entries w' = entries w.
Proof.
  intros c cfg w d lim ok R. destruct (reach_good c ok _ _ _ _ R) as [G _].
  destruct (reopen_step c ok _ _ G) as (w2 & A & _ & B & _). exists w2. auto.
Qed.
Print Assumptions C35_reopen.
Example C35_reopen_ex : reach toy cfg0 (fst s3) (snd s3) None /\ map eIndex (entries (fst s3)) = [1; 2; 3].
Proof. split; [exact reach_s3|reflexivity]. Qed.

(** ** C52: damage *)

(** Whatever bytes the log file holds: when it opens against an intact parlog, it holds
    the first of the entries that were stored. *)
Theorem C52_log_damage_partial : forall c cfg w d lim f w', codec_ok c -> reach c cfg w d lim ->
  noCollision c f (entries w) -> openWal c (mkD f (dPar d)) = Ok w' -> exists n, entries w' = firstn n (entries w).
Proof.
  intros c cfg w d lim f w' ok R. intros. destruct (reach_good c ok _ _ _ _ R) as [G _]. eapply wal_damage; eassumption.
Qed.
Print Assumptions C52_log_damage_partial.
Example C52_log_damage_ex : let f := dWal (snd s3) in
  noCollision toy f (entries (fst s3)) /\
  (* any changed byte *)
  forallb (fun i => negb (opens (mkD (firstn i f ++ (nth i f 0 + 1) :: skipn (S i) f) (dPar (snd s3))))) (seq 0 (length f)) = true.
Proof. intros f. split; [apply noCollision_check; vm_compute; reflexivity|vm_compute; reflexivity]. Qed.

(** Whatever bytes the parlog holds: when it opens, it holds what was stored. *)
Theorem C52_parlog_damage : forall c cfg w d lim p w', codec_ok c -> reach c cfg w d lim ->
  openWal c (mkD (dWal d) p) = Ok w' -> entries w' = entries w.
Proof.
  intros c cfg w d lim p w' ok R H. destruct (reach_good c ok _ _ _ _ R) as [G _]. eapply par_damage; eassumption.
Qed.
Print Assumptions C52_parlog_damage.
Example C52_parlog_damage_ex :
  opens (mkD (dWal (snd s3)) (dPar (snd s3) ++ firstn 400 (dPar (snd s3)))) = true /\
  opens (mkD (dWal (snd s3)) (firstn 800 (dPar (snd s3)))) = false.
Proof. split; vm_compute; reflexivity. Qed.

(** A log file that lost its last records opens without notice. *)
Theorem C52_lost_tail_refuted : exists c cfg w d f w', codec_ok c /\ reach c cfg w d None /\
  f <> dWal d /\ noCollision c f (entries w) /\ openWal c (mkD f (dPar d)) = Ok w' /\ entries w' <> entries w.
Proof.
  exists toy, cfg0, (fst s3), (snd s3), (dWal (snd s2)), (fst (after (fst s3, mkD (dWal (snd s2)) (dPar (snd s3))) doOpen)).
  split; [exact toy_ok|]. split; [exact reach_s3|]. split; [vm_compute; discriminate|].
  split; [apply noCollision_check; vm_compute; reflexivity|]. split; [vm_compute; reflexivity|]. vm_compute. discriminate.
Qed.
Print Assumptions C52_lost_tail_refuted.

(** ** C53: the log is a plain list behind a base *)

(** Appending stores the entry behind the others, with its predecessor's index and term,
    and succeeds only for the index that follows. *)
Theorem C53_append : forall c cfg w d lim e ops w', codec_ok c -> reach c cfg w d lim -> okEntry c e ->
  saveRaftLogEntry c e w = (ops, Ok w') -> content w' = sAppend (content w) e /\ eIndex e = sLastIndex (content w) + 1.
Proof.
  intros c cfg w d lim e ops w' ok R He H. destruct (reach_good c ok _ _ _ _ R) as [G L].
  destruct (save_step c ok _ _ _ _ _ _ G L He H) as (_ & _ & E). split; [exact E|].
  unfold saveRaftLogEntry, saveEntry in H. mok H. apply Z.eqb_eq in H0. destruct G as [G _]. pose proof (g_lli _ _ _ _ G) as Hl.
  unfold sLastIndex. cbn [content sBase sLog]. rewrite entries_len. lia.
Qed.
Print Assumptions C53_append.
Example C53_append_ex : exists ops w', saveRaftLogEntry toy (en 2 4 5) (fst s3) = (ops, Ok w') /\
  sLog (content w') = entries (fst s3) ++ [mkE 2 4 3 2 [5]].
Proof. eexists. eexists. split; [vm_compute; reflexivity|]. reflexivity. Qed.

(** A batch keeps the entries up to an index and stores the new ones behind them, and may
    then discard those before the last applied one.  [_partial]: the guard on [lim]. *)
Theorem C53_overwrite_partial : forall c cfg w d lim i es isLeader commit applied ops w', codec_ok c -> reach c cfg w d lim ->
  Forall (okEntry c) es -> consecutive (i + 1) es ->
  ((kept w i < length (raftLog w))%nat -> within lim (kept w i)) ->
  overwriteEntries c cfg i es isLeader commit applied d w = (ops, Ok w') ->
  content w' = sOverwrite (content w) i es \/
  (content w' = sCompact (sOverwrite (content w) i es) applied /\
   sBase (content w) + 1 < applied <= sLastIndex (sOverwrite (content w) i es)).
Proof.
  intros c cfg w d lim i es b m a ops w' ok R Ho Hc Hw H. destruct (reach_good c ok _ _ _ _ R) as [G L].
  destruct (overwrite_step c ok _ _ _ _ _ _ _ _ _ _ _ G L Ho Hc Hw H) as (_ & _ & E). unfold overwritten in E.
  destruct (compacts ops); [right; exact E|left; exact E].
Qed.
Print Assumptions C53_overwrite_partial.
Example C53_overwrite_ex : exists ops w', overwriteEntries toy (mkCfg false 10) 1 [en 3 2 5; en 3 3 6; en 3 4 7] false 0 3 (snd s3) (fst s3) = (ops, Ok w') /\
  content w' = mkS 2 3 [mkE 3 3 2 3 [6]; mkE 3 4 3 3 [7]].
Proof. eexists. eexists. split; [vm_compute; reflexivity|]. reflexivity. Qed.

(** What a batch drops was not committed, nor is it written again, when the log is opened
    without compaction.  [_partial]: the guards on the setting and on [lim]. *)
Theorem C53_committed_partial : forall c cfg w d lim i es isLeader commit applied ops w', codec_ok c -> reach c cfg w d lim ->
  Forall (okEntry c) es -> consecutive (i + 1) es ->
  ((kept w i < length (raftLog w))%nat -> within lim (kept w i)) -> noLogCompaction cfg = true ->
  overwriteEntries c cfg i es isLeader commit applied d w = (ops, Ok w') ->
  forall e, In e (entries w) -> In e (entries w') \/
    (commit < eIndex e /\ forall r, In r es -> eIndex r = eIndex e -> eTerm r <> eTerm e).
Proof.
  intros c cfg w d lim i es b m a ops w' ok R Ho Hc Hw Hnc H e He.
  destruct (reach_good c ok _ _ _ _ R) as [G L]. pose proof G as [G1 _].
  assert (EC : content w' = sOverwrite (content w) i es).
  { destruct (overwrite_step c ok _ _ _ _ _ _ _ _ _ _ _ G L Ho Hc Hw H) as (_ & _ & E). unfold overwritten in E.
    destruct (compacts ops) eqn:Ecp; [|exact E]. exfalso. unfold overwriteEntries in H. mok H. rewrite Hnc in H. cbn [negb andb] in H.
    destruct (plan i es w) as [[[[k es'] kc] oc]|].
    - mok H. apply ret_ok in H as [_ ->]. subst. rewrite app_nil_r in Ecp. cbn [app] in Ecp.
      pose proof (rewrite_nocompact _ _ _ _ _ _ _ _ _ _ H1). congruence.
    - apply ret_ok in H as [_ ->]. subst. discriminate. }
  assert (AL : forall l s x, In x (sLog s) -> In x (sLog (sAppendAll s l))).
  { clear. induction l as [|y l IH]; intros s x Hx; [exact Hx|]. unfold sAppendAll in *. cbn [fold_left]. apply IH.
    cbn [sAppend sLog]. apply in_or_app. auto. }
  change (entries w') with (sLog (content w')). rewrite EC. unfold sOverwrite. cbn [content sBase].
  unfold overwriteEntries in H. mok H. pose proof (plan_spec c w d i es G Hc) as HP.
  destruct (plan i es w) as [[[[k es'] kc] oc]|].
  2: { left. replace (i <? BaseC (logIndex w)) with true by (symmetry; apply Z.ltb_lt; lia).
    replace (i + Z.of_nat (length es) <=? BaseC (logIndex w)) with true by (symmetry; apply Z.leb_le; lia). exact He. }
  destruct HP as (Hn & Ees & Eoc & Hlt).
  destruct ((i <? BaseC (logIndex w)) && (i + Z.of_nat (length es) <=? BaseC (logIndex w))) eqn:En; [left; exact He|].
  destruct (Z.leb_spec (eIndex e) i) as [Hle|Hgt].
  { left. apply AL. cbn [sKeep sLog]. apply filter_In. split; [exact He|]. apply Z.leb_le. exact Hle. }
  right. pose proof (good_consecutive _ _ _ _ G1) as HC.
  assert (CN : forall l j n x, consecutive j l -> nth_error l n = Some x -> eIndex x = j + Z.of_nat n).
  { clear. induction l as [|y l IH]; intros j n x Hl Hx; [destruct n; discriminate|]. cbn [consecutive] in Hl. destruct Hl as [H1 H2].
    destruct n; cbn [nth_error] in Hx; [injection Hx as ->; lia|]. specialize (IH _ _ _ H2 Hx). lia. }
  destruct (In_nth_error _ _ He) as [n Hne]. pose proof (CN _ _ _ _ HC Hne) as Hie.
  assert (Hnl : (n < length (raftLog w))%nat) by (rewrite <- entries_len; apply nth_error_Some; congruence).
  pose proof (good_kept _ _ _ _ i G1) as Hk.
  destruct (Hlt ltac:(lia)) as [Ekc Ek]. mok H. unfold rewrite in H1. mok H1.
  replace (Z.to_nat oc =? 0)%nat with false in H2 by (symmetry; apply Nat.eqb_neq; lia).
  unfold cut in H2. destruct (nth_error (begseekpos w) (Z.to_nat kc)) as [beg|]; [|discriminate]. mok H2. mok H2.
  rewrite Hnc in H4. cbn [negb orb] in H4. rewrite Ekc in H4.
  assert (PW : forall rs ks, overwriteOk m rs ks = true -> forall p x, nth_error (map fst ks) p = Some x ->
    m < eIndex x /\ exists r, nth_error rs p = Some r /\ ~ (eTerm r = eTerm x /\ eIndex r = eIndex x)).
  { clear. intros rs ks. revert rs. induction ks as [|[y b] ks IH]; intros rs Hr p x Hx; [destruct p; discriminate|].
    cbn [overwriteOk] in Hr. destruct rs as [|r rs]; [discriminate|]. apply andb_prop in Hr as [Hr H3]. apply andb_prop in Hr as [H1 H2].
    destruct p; cbn [nth_error map fst] in Hx.
    - injection Hx as ->. apply Z.ltb_lt in H2. split; [exact H2|]. exists r. split; [reflexivity|]. intros [A B].
      apply negb_true_iff in H1. rewrite A, B, !Z.eqb_refl in H1. discriminate.
    - exact (IH _ H3 _ _ Hx). }
  assert (Hke : nth_error (map fst (skipn (kept w i) (raftLog w))) (n - kept w i) = Some e).
  { rewrite <- skipn_map. fold (entries w). rewrite <- Hne. rewrite <- (firstn_skipn (kept w i) (entries w)) at 2.
    assert (length (firstn (kept w i) (entries w)) = kept w i) by (rewrite firstn_length, entries_len; lia).
    rewrite nth_error_app2 by lia. f_equal. lia. }
  destruct (PW _ _ H4 _ _ Hke) as (Hm & r0 & Hr0 & Hd). split; [exact Hm|]. intros r Hr Hri Hrt.
  apply Hd. clear Hd PW.
  assert (Hr0' : nth_error es' (n - kept w i) = Some r0).
  { clear -Hr0. revert Hr0. generalize (Nat.min (Z.to_nat oc) (length es' - 1)) (n - kept w i)%nat. intros q. revert es'.
    induction q; intros [|y l] p; cbn [firstn]; try (destruct p; discriminate). destruct p; cbn [nth_error]; [auto|apply IHq]. }
  rewrite (filter_gt es i _ Hc) in Ees.
  assert (NS : forall (q : nat) (l : list entry) p, nth_error (skipn q l) p = nth_error l (q + p)).
  { clear. induction q; intros l p; [reflexivity|]. destruct l; [destruct p; reflexivity|]. cbn [skipn plus nth_error]. apply IHq. }
  rewrite Ees, NS in Hr0'. pose proof (CN _ _ _ _ Hc Hr0') as Hi0.
  destruct (In_nth_error _ _ Hr) as [q Hq]. pose proof (CN _ _ _ _ Hc Hq) as Hiq.
  assert (Eq : q = (Z.to_nat (BaseC (logIndex w) - i) + (n - kept w i))%nat) by lia.
  rewrite <- Eq in Hr0'. assert (r0 = r) by congruence. subst r0. auto.
Qed.
Print Assumptions C53_committed_partial.
Example C53_committed_ex : exists w', snd (overwriteEntries toy (mkCfg true 10) 2 [en 3 3 6; en 3 4 7] false 2 0 (snd s3) (fst s3)) = Ok w' /\
  map eTerm (entries w') = [1; 1; 3; 3].
Proof. eexists. split; [vm_compute; reflexivity|]. reflexivity. Qed.

(** With compaction on, the check is skipped: a batch replaces a committed entry. *)
Theorem C53_committed_refuted : exists c cfg w d lim i es commit applied ops w' e,
  codec_ok c /\ reach c cfg w d lim /\ Forall (okEntry c) es /\ consecutive (i + 1) es /\
  ((kept w i < length (raftLog w))%nat -> within lim (kept w i)) /\
  overwriteEntries c cfg i es false commit applied d w = (ops, Ok w') /\
  In e (entries w) /\ eIndex e <= commit /\ sBase (content w') < eIndex e /\ ~ In e (entries w').
Proof.
  exists toy, cfg0, (fst s3), (snd s3), None, 1, [en 3 2 5], 2, 0. eexists. eexists. exists (mkE 1 2 1 1 [8]).
  split; [exact toy_ok|]. split; [exact reach_s3|]. split; [repeat constructor; apply ok_en|]. split; [cbn; auto|].
  split; [intros _; exact I|]. split; [vm_compute; reflexivity|]. split; [vm_compute; auto|]. split; [cbn; lia|].
  split; [vm_compute; reflexivity|]. vm_compute. intros [H|[H|[]]]; discriminate.
Qed.
Print Assumptions C53_committed_refuted.

(** Without compaction, a batch that is no longer than the tail it replaces panics, though
    nothing in that tail is committed. *)
Theorem C53_shorter_refuted : exists c cfg w d lim i es commit applied,
  codec_ok c /\ reach c cfg w d lim /\ Forall (okEntry c) es /\ consecutive (i + 1) es /\ es <> [] /\
  ((kept w i < length (raftLog w))%nat -> within lim (kept w i)) /\ noLogCompaction cfg = true /\
  (forall e, In e (entries w) -> i < eIndex e -> commit < eIndex e /\ forall r, In r es -> eTerm e < eTerm r) /\
  snd (overwriteEntries c cfg i es false commit applied d w) = Panic.
Proof.
  exists toy, (mkCfg true 10), (fst s3), (snd s3), None, 1, [en 3 2 5], 1, 0.
  split; [exact toy_ok|]. split; [exact (reach_s3' (mkCfg true 10))|]. split; [repeat constructor; apply ok_en|]. split; [cbn; auto|].
  split; [discriminate|]. split; [intros _; exact I|]. split; [reflexivity|]. split; [|vm_compute; reflexivity].
  intros e He Hi. vm_compute in He. destruct He as [<-|[<-|[<-|[]]]]; cbn in *; (split; [lia|intros r [<-|[]]; cbn; lia]).
Qed.
Print Assumptions C53_shorter_refuted.

(** Compaction discards exactly the entries before an index, or nothing. *)
Theorem C53_compact : forall c cfg w d lim k ops w', codec_ok c -> reach c cfg w d lim -> compact c cfg k w = (ops, Ok w') ->
  (ops = [] /\ content w' = content w) \/
  (content w' = sCompact (content w) k /\ sBase (content w) + 1 < k <= sLastIndex (content w)).
Proof.
  intros c cfg w d lim k ops w' ok R H. destruct (reach_good c ok _ _ _ _ R) as [G L].
  destruct (compact_step c ok _ _ _ _ _ _ _ G L H) as (_ & _ & E & Hr). destruct (compacts ops) eqn:Ec; [right; auto|left].
  split; [|exact E]. unfold compact in H. mok H. mok H. mok H. apply ret_ok in H as [_ ->]. subst. rewrite app_nil_r in *. cbn [app] in *.
  destruct (compactGo_cases c ok _ _ _ _ _ G H1) as [[-> _]|[[_ X]|(w1 & p & f & _ & -> & _)]]; [reflexivity|discriminate|discriminate Ec].
Qed.
Print Assumptions C53_compact.
Example C53_compact_ex : exists ops w', compact toy cfg0 2 (fst s3) = (ops, Ok w') /\ content w' = mkS 1 1 [mkE 1 2 1 1 [8]; mkE 2 3 2 1 [9]].
Proof. eexists. eexists. split; [vm_compute; reflexivity|]. reflexivity. Qed.

(** An installed snapshot leaves no entries behind its last index and term. *)
Theorem C53_snapshot : forall c cfg w d lim i t ops w', codec_ok c -> reach c cfg w d lim -> 0 <= i -> 0 <= t ->
  installedSnapshot i t w = (ops, Ok w') -> content w' = mkS i t [] /\ dWal (applyAll ops d) = [] /\ dPar (applyAll ops d) = [].
Proof.
  intros c cfg w d lim i t ops w' ok R Hi Ht H. destruct (reach_good c ok _ _ _ _ R) as [G L].
  destruct (snapshot_step c _ _ _ _ _ _ G Hi Ht H) as (G' & E). split; [exact E|].
  assert (El : raftLog w' = []).
  { apply (f_equal sLog) in E. cbn [content sLog] in E. unfold entries in E. destruct (raftLog w'); [reflexivity|discriminate]. }
  destruct G' as [G' _]. rewrite (good_parImage c _ _ _ G'), (g_wal _ _ _ _ G'), El. split; reflexivity.
Qed.
Print Assumptions C53_snapshot.
Example C53_snapshot_ex : exists ops w', installedSnapshot 9 4 (fst s3) = (ops, Ok w').
Proof. eexists. eexists. vm_compute. reflexivity. Qed.

(** Opening gives the entries back, and the base when there are entries. *)
Theorem C53_reopen_partial : forall c cfg w d lim, codec_ok c -> reach c cfg w d lim -> exists w', openWal c d = Ok w' /\
  entries w' = entries w /\ (entries w <> [] -> content w' = content w).
Proof.
  intros c cfg w d lim ok R. destruct (reach_good c ok _ _ _ _ R) as [G _].
  destruct (reopen_step c ok _ _ G) as (w2 & A & _ & B & C & _). exists w2. split; [exact A|]. split; [exact B|].
  intros Hn. apply C. intros E. apply Hn. unfold entries. rewrite E. reflexivity.
Qed.
Print Assumptions C53_reopen_partial.

(** The indexes of the entries follow the base. *)
Theorem C53_indexes : forall c cfg w d lim, codec_ok c -> reach c cfg w d lim -> consecutive (sBase (content w) + 1) (entries w).
Proof. intros c cfg w d lim ok R. destruct (reach_good c ok _ _ _ _ R) as [[G _] _]. exact (good_consecutive c _ _ _ G). Qed.
Print Assumptions C53_indexes.

(** Lookups. *)
Theorem C53_get : forall c cfg w d lim idx e, codec_ok c -> reach c cfg w d lim ->
  (getEntry idx w = Some e <-> In e (entries w) /\ eIndex e = idx).
Proof. intros c cfg w d lim idx e ok R. destruct (reach_good c ok _ _ _ _ R) as [G _]. eapply getEntry_ok; eassumption. Qed.
Print Assumptions C53_get.
Theorem C53_from : forall c cfg w d lim idx, codec_ok c -> reach c cfg w d lim -> 1 <= idx ->
  getAllEntriesFrom idx w = Ok (if match entries w with [] => true | _ => sBase (content w) <? idx end
                                then (filter (fun e => idx <=? eIndex e) (entries w), false) else ([], true)).
Proof. intros c cfg w d lim idx ok R Hi. destruct (reach_good c ok _ _ _ _ R) as [G _]. eapply getAll_ok; eassumption. Qed.
Print Assumptions C53_from.
Theorem C53_past : forall c cfg w d lim x, codec_ok c -> reach c cfg w d lim -> sBase (content w) <= x ->
  getLogPast x w = Ok (filter (fun e => x <? eIndex e) (entries w)).
Proof. intros c cfg w d lim x ok R Hx. destruct (reach_good c ok _ _ _ _ R) as [G _]. eapply getLogPast_ok; eassumption. Qed.
Print Assumptions C53_past.
Example C53_lookups_ex : getEntry 2 (fst s3) = Some (mkE 1 2 1 1 [8]) /\ getEntry 4 (fst s3) = None /\
  option_map (@length entry) (match getLogPast 1 (fst s3) with Ok l => Some l | Panic => None end) = Some 2%nat.
Proof. repeat split; vm_compute; reflexivity. Qed.

(** A process that opened a log of two entries, appended two and replaced the fourth has
    destroyed the log file, although every call succeeded: opening kept a position too
    many, so the position kept for the fourth entry is that of the third. *)
Definition r1 := after (after (after s2 doOpen) (doSave (en 2 3 9))) (doSave (en 2 4 9)).
Definition r2 := after r1 (doOver cfg0 3 [en 3 4 5] 0).
Theorem C53_overwrite_refuted : exists c cfg w d es ops w', codec_ok c /\ (exists l, reach c cfg w d (Some l)) /\
  Forall (okEntry c) es /\ consecutive (3 + 1) es /\ map eIndex (entries w) = [1; 2; 3; 4] /\
  overwriteEntries c cfg 3 es false 0 0 d w = (ops, Ok w') /\
  content w' = sOverwrite (content w) 3 es /\ openWal c (applyAll ops d) = Panic.
Proof.
  exists toy, cfg0, (fst r1), (snd r1), [en 3 4 5], (fst (doOver cfg0 3 [en 3 4 5] 0 (fst r1) (snd r1))), (fst r2).
  split; [exact toy_ok|]. split.
  { exists 2. apply after_save; [|apply ok_en|vm_compute; reflexivity]. apply after_save; [|apply ok_en|vm_compute; reflexivity].
    pose proof (after_open s2 None reach_s2) as R.
    replace (match raftLog (fst (after s2 doOpen)) with [] => None | l => Some (Z.of_nat (length l)) end) with (Some 2) in R by (vm_compute; reflexivity).
    apply R. vm_compute. reflexivity. }
  split; [repeat constructor; apply ok_en|]. split; [cbn; auto|]. split; [vm_compute; reflexivity|].
  split; [vm_compute; reflexivity|]. split; vm_compute; reflexivity.
Qed.
Print Assumptions C53_overwrite_refuted.

(** After a compaction, a batch that replaces every entry panics half way, and the log
    never opens again. *)
Definition k0 := after s3 (fun w _ => compact toy cfg0 2 w).
Theorem C53_replace_all_refuted : exists c cfg w d es ops, codec_ok c /\ (exists l, reach c cfg w d (Some l)) /\
  Forall (okEntry c) es /\ consecutive (1 + 1) es /\ sBase (content w) = 1 /\ length (entries w) = 2%nat /\
  overwriteEntries c cfg 1 es false 0 0 d w = (ops, Panic) /\ openWal c (applyAll ops d) = Panic.
Proof.
  exists toy, cfg0, (fst k0), (snd k0), [en 4 2 5], (fst (doOver cfg0 1 [en 4 2 5] 0 (fst k0) (snd k0))).
  split; [exact toy_ok|]. split.
  { eexists. pose proof (after_compact s3 2 None reach_s3) as R. cbv zeta in R.
    match type of R with _ -> reach _ _ _ _ ?x => replace x with (Some 2) in R by (vm_compute; reflexivity) end.
    apply R. vm_compute. reflexivity. }
  split; [repeat constructor; apply ok_en|]. split; [cbn; auto|]. repeat split; vm_compute; reflexivity.
Qed.
Print Assumptions C53_replace_all_refuted.

(** After an installed snapshot, opening the (empty) log forgets the base: the index that
    follows is refused and index 1 accepted. *)
Definition n1 := after s3 (doSnap 9 4).
Definition n2 := after n1 doOpen.
Theorem C53_reopen_refuted : exists c cfg w d w', codec_ok c /\ (exists l, reach c cfg w d l) /\ openWal c d = Ok w' /\
  content w = mkS 9 4 [] /\ content w' = mkS 0 0 [].
Proof.
  exists toy, cfg0, (fst n1), (snd n1), (fst n2). split; [exact toy_ok|]. split.
  { exists (Some (-1)). exact (reach_snapshot toy cfg0 _ _ _ 9 4 (fst (installedSnapshot 9 4 (fst s3))) (fst n1) reach_s3 ltac:(lia) ltac:(lia) eq_refl). }
  repeat split; vm_compute; reflexivity.
Qed.
Print Assumptions C53_reopen_refuted.

(** ** C55: after a crash *)

(** A follower's batch: when the log opens again it holds what it held before, or the
    kept entries and the first of the new ones, or what the compaction that follows
    leaves of all of them.  [_partial]: the guard on [lim]. *)
Theorem C55_batch_crash_partial : forall c cfg w d lim i es isLeader commit applied ops r d' w', codec_ok c -> reach c cfg w d lim ->
  Forall (okEntry c) es -> consecutive (i + 1) es ->
  ((kept w i < length (raftLog w))%nat -> within lim (kept w i)) ->
  overwriteEntries c cfg i es isLeader commit applied d w = (ops, r) -> powerLoss ops None d d' ->
  noCollision c (dWal d') (entries w ++ sLog (sOverwrite (content w) i es)) -> openWal c d' = Ok w' ->
  entries w' = entries w \/
  (exists n, entries w' = sLog (sAppendAll (sKeep (content w) i) (firstn n (filter (fun e => sBase (content w) <? eIndex e) es)))) \/
  (sBase (content w) + 1 < applied /\ entries w' = sLog (sCompact (sOverwrite (content w) i es) applied)).
Proof. intros. eapply overwrite_crash; eassumption. Qed.
Print Assumptions C55_batch_crash_partial.
(** Two entries replaced by three; the process dies after the first. *)
Example C55_batch_crash_ex : let es := [en 3 2 5; en 3 3 6; en 3 4 7] in
  let ops := fst (overwriteEntries toy cfg0 1 es false 0 0 (snd s3) (fst s3)) in
  let d' := applyAll (firstn 6 ops) (snd s3) in
  powerLoss ops None (snd s3) d' /\ consecutive 2 es /\ kept (fst s3) 1 = 1%nat /\
  map eTerm (opened d') = [] /\ opens d' = false /\
  map eTerm (opened (applyAll ops (snd s3))) = [1; 3; 3; 3] /\
  let d2 := mkD (firstn 24 (dWal d')) (dPar d') in powerLoss ops None (snd s3) d2 /\ map eTerm (opened d2) = [1; 3] /\
    noCollision toy (dWal d2) (entries (fst s3) ++ sLog (sOverwrite (content (fst s3)) 1 es)).
Proof.
  intros es ops d'.
  assert (K : forall n l d, killed l d (applyAll (firstn n l) d)).
  { induction n as [|n IH]; intros l d; cbn; [constructor|]. destruct l as [|o l]; cbn; [constructor|apply killed_later, IH]. }
  split; [apply killed_powerLoss, K|]. clear K.
  split; [cbn; auto|]. split; [reflexivity|]. split; [vm_compute; reflexivity|]. split; [vm_compute; reflexivity|].
  split; [vm_compute; reflexivity|]. intros d2.
  split; [|split; [vm_compute; reflexivity|apply noCollision_check; vm_compute; reflexivity]].
  subst d2 d' ops. match goal with |- powerLoss ?l _ _ _ => let l' := eval vm_compute in l in change l with l' end.
  apply pl_par; [exact I|]. apply pl_par; [exact I|]. apply pl_write. apply pl_write. apply pl_par; [exact I|]. apply pl_par; [exact I|].
  match goal with |- powerLoss _ _ ?d0 ?d1 => change d1 with (mkD (dWal d1) (dPar d0)) end.
  apply pl_now. vm_compute. reflexivity.
Qed.

(** A compaction: the log before or after it. *)
Theorem C55_compact_crash : forall c cfg w d lim k ops r d' w', codec_ok c -> reach c cfg w d lim -> compact c cfg k w = (ops, r) ->
  powerLoss ops None d d' -> noCollision c (dWal d') (entries w) -> openWal c d' = Ok w' ->
  entries w' = entries w \/ entries w' = sLog (sCompact (content w) k).
Proof. intros. eapply compact_crash'; eassumption. Qed.
Print Assumptions C55_compact_crash.
(** Killed between the two renames, the log never opens again; on either side it does. *)
Example C55_compact_crash_ex : let ops := fst (compact toy cfg0 2 (fst s3)) in
  map (fun n => opens (applyAll (firstn n ops) (snd s3))) (seq 0 6) = [true; true; true; false; true; true] /\
  map eIndex (opened (applyAll ops (snd s3))) = [2; 3] /\ noCollision toy (dWal (applyAll ops (snd s3))) (entries (fst s3)).
Proof. intros ops. split; [vm_compute; reflexivity|]. split; [vm_compute; reflexivity|]. apply noCollision_check. vm_compute. reflexivity. Qed.

(** Installing a snapshot empties the log: a crash leaves none or the first of the old
    entries. *)
Theorem C55_snapshot_crash : forall c cfg w d lim i t ops r d' w', codec_ok c -> reach c cfg w d lim ->
  installedSnapshot i t w = (ops, r) ->
  powerLoss ops None d d' -> noCollision c (dWal d') (entries w) -> openWal c d' = Ok w' ->
  exists n, entries w' = firstn n (entries w).
Proof.
  intros c cfg w d lim i t ops r d' w' ok R. intros. destruct (reach_good c ok _ _ _ _ R) as [G _].
  eapply snapshot_crash; eassumption.
Qed.
Print Assumptions C55_snapshot_crash.
Example C55_snapshot_crash_ex : let ops := fst (installedSnapshot 9 4 (fst s3)) in
  let d' := mkD (firstn 12 (dWal (snd s3))) (dPar (snd s3)) in
  powerLoss ops None (snd s3) d' /\ map eIndex (opened d') = [1] /\ noCollision toy (dWal d') (entries (fst s3)).
Proof.
  intros ops d'. split; [|split; [vm_compute; reflexivity|apply noCollision_check; vm_compute; reflexivity]].
  apply pl_trunc. match goal with |- powerLoss _ _ ?d0 d' => change d' with (mkD (dWal d') (dPar d0)) end. apply pl_now. reflexivity.
Qed.

(** After any of these calls nothing is left to sync. *)
Theorem C55_synced_partial : forall c cfg w d lim ops w', codec_ok c -> reach c cfg w d lim ->
  (exists e, saveRaftLogEntry c e w = (ops, Ok w')) \/
  (exists k, compact c cfg k w = (ops, Ok w')) \/
  (exists i t, installedSnapshot i t w = (ops, Ok w')) \/
  (exists i es isLeader commit applied, Forall (okEntry c) es /\ consecutive (i + 1) es /\
    ((kept w i < length (raftLog w))%nat -> within lim (kept w i)) /\
    overwriteEntries c cfg i es isLeader commit applied d w = (ops, Ok w')) ->
  synced true true true ops = true.
Proof.
  intros c cfg w d lim ops w' ok R H. destruct (reach_good c ok _ _ _ _ R) as [G L].
  destruct H as [(e & H)|[(k & H)|[(i & t & H)|(i & es & b & m & a & Ho & Hc & Hw & H)]]].
  - eapply synced_save; eassumption.
  - eapply synced_compact; eauto.
  - eapply synced_snapshot; eassumption.
  - eapply synced_overwrite; eassumption.
Qed.
Print Assumptions C55_synced_partial.
Example C55_synced_ex : exists ops w', overwriteEntries toy cfg0 1 [en 3 2 5; en 3 3 6; en 3 4 7] false 0 0 (snd s3) (fst s3) = (ops, Ok w') /\
  length ops = 15%nat /\ map eTerm (entries w') = [1; 3; 3; 3].
Proof. eexists. eexists. split; [vm_compute; reflexivity|]. split; reflexivity. Qed.

(** A log that opens after a crash of an append is one that completed calls can reach:
    all of the above goes on to hold for it. *)
Theorem C55_append_usable_partial : forall c cfg w d lim e ops r d' w', codec_ok c -> reach c cfg w d lim -> okEntry c e ->
  saveRaftLogEntry c e w = (ops, r) -> powerLoss ops None d d' -> openWal c d' = Ok w' ->
  reach c cfg w' d' (match raftLog w' with [] => None | l => Some (Z.of_nat (length l)) end).
Proof.
  intros c cfg w d lim e ops r d' w' ok R He H Hp Ho.
  pose proof (append_crash c ok _ _ _ _ _ _ _ _ R He H Hp) as X. rewrite Ho in X.
  destruct X as [[-> _]|(-> & (w1 & ->) & _)].
  - eapply reach_reopen; eassumption.
  - eapply reach_reopen; [|eassumption]. eapply reach_save; eassumption.
Qed.
Print Assumptions C55_append_usable_partial.

(** A process that dies while it appends leaves a log that cannot be opened. *)
Theorem C55_append_refuted : exists c cfg w d e ops w' d', codec_ok c /\ reach c cfg w d None /\ okEntry c e /\
  saveRaftLogEntry c e w = (ops, Ok w') /\ killed ops d d' /\ openWal c d' = Panic.
Proof.
  exists toy, cfg0, (fst s3), (snd s3), (en 2 4 5), (fst (saveRaftLogEntry toy (en 2 4 5) (fst s3))),
    (fst (after s3 (doSave (en 2 4 5)))), (apply (WWrite 36 [196; 5; 2]) (snd s3)).
  split; [exact toy_ok|]. split; [exact reach_s3|]. split; [apply ok_en|]. split; [vm_compute; reflexivity|].
  split; [|vm_compute; reflexivity].
  match goal with |- killed ?l _ _ => let l' := eval vm_compute in l in change l with l' end.
  match goal with |- killed (WWrite 36 ?b :: ?l) ?d _ => exact (killed_wal 36 b 3 l d) end.
Qed.
Print Assumptions C55_append_refuted.

(** A process dies while it installs a snapshot; the log opens (empty); an append
    succeeds and is lost with the whole log, because the parlog still has the slots of
    the old entries. *)
Definition q0 : disk := mkD [] (dPar (snd s3)).
Definition q1 := after (fst s3, q0) doOpen.
Definition q2 := after q1 (doSave (en 4 1 1)).
Theorem C55_snapshot_refuted : exists c cfg w d i t ops w1 d' w2 e ops2 w3, codec_ok c /\ reach c cfg w d None /\
  installedSnapshot i t w = (ops, Ok w1) /\ killed ops d d' /\ openWal c d' = Ok w2 /\
  okEntry c e /\ saveRaftLogEntry c e w2 = (ops2, Ok w3) /\ openWal c (applyAll ops2 d') = Panic.
Proof.
  exists toy, cfg0, (fst s3), (snd s3), 9, 4, (fst (installedSnapshot 9 4 (fst s3))), (fst n1), q0, (fst q1), (en 4 1 1),
    (fst (saveRaftLogEntry toy (en 4 1 1) (fst q1))), (fst q2).
  split; [exact toy_ok|]. split; [exact reach_s3|]. split; [vm_compute; reflexivity|]. split.
  { apply killed_later, killed_later, killed_now. }
  split; [vm_compute; reflexivity|]. split; [apply ok_en|]. split; vm_compute; reflexivity.
Qed.
Print Assumptions C55_snapshot_refuted.

(** The same after a power loss while a follower appends a batch: the parlog is synced
    entry by entry, the log only at the end. *)
Definition b0 := overwriteEntries toy cfg0 3 [en 3 4 5; en 3 5 6] false 0 0 (snd s3) (fst s3).
Definition b1 : disk := mkD (dWal (snd s3)) (dPar (applyAll (fst b0) (snd s3))).
Definition b2 := after (fst s3, b1) doOpen.
Theorem C55_batch_refuted : exists c cfg w d i es ops w1 d' w2 e ops2 w3, codec_ok c /\ reach c cfg w d None /\
  Forall (okEntry c) es /\ consecutive (i + 1) es /\ overwriteEntries c cfg i es false 0 0 d w = (ops, Ok w1) /\
  powerLoss ops None d d' /\ openWal c d' = Ok w2 /\ entries w2 = entries w /\
  okEntry c e /\ saveRaftLogEntry c e w2 = (ops2, Ok w3) /\ openWal c (applyAll ops2 d') = Panic.
Proof.
  exists toy, cfg0, (fst s3), (snd s3), 3, [en 3 4 5; en 3 5 6], (fst b0), (match snd b0 with Ok w => w | Panic => fst s3 end), b1, (fst b2),
    (en 4 4 1), (fst (saveRaftLogEntry toy (en 4 4 1) (fst b2))), (fst (after b2 (doSave (en 4 4 1)))).
  split; [exact toy_ok|]. split; [exact reach_s3|]. split; [repeat constructor; apply ok_en|]. split; [cbn; auto|].
  split; [vm_compute; reflexivity|]. split.
  { match goal with |- powerLoss ?l _ _ _ => let l' := eval vm_compute in l in change l with l' end.
    apply pl_write. apply pl_write. apply pl_par; [exact I|]. apply pl_par; [exact I|].
    apply pl_write. apply pl_write. apply pl_par; [exact I|]. apply pl_par; [exact I|].
    match goal with |- powerLoss _ _ ?x ?y => change y with (mkD (dWal y) (dPar x)) end. apply pl_now. vm_compute. reflexivity. }
  split; [vm_compute; reflexivity|]. split; [vm_compute; reflexivity|]. split; [apply ok_en|]. split; vm_compute; reflexivity.
Qed.
Print Assumptions C55_batch_refuted.

(** Killed between the two renames of a compaction, the log never opens again. *)
Theorem C55_compact_refuted : exists c cfg w d k ops w' d', codec_ok c /\ reach c cfg w d None /\
  compact c cfg k w = (ops, Ok w') /\ killed ops d d' /\ openWal c d' = Panic.
Proof.
  exists toy, cfg0, (fst s3), (snd s3), 2, (fst (compact toy cfg0 2 (fst s3))), (fst k0), (applyAll (firstn 3 (fst (compact toy cfg0 2 (fst s3)))) (snd s3)).
  split; [exact toy_ok|]. split; [exact reach_s3|]. split; [vm_compute; reflexivity|]. split; [|vm_compute; reflexivity].
  generalize (snd s3). generalize (fst (compact toy cfg0 2 (fst s3))) as l. generalize 3%nat as n.
  induction n as [|n IH]; intros l d; cbn; [constructor|]. destruct l as [|o l]; cbn; [constructor|apply killed_later, IH].
Qed.
Print Assumptions C55_compact_refuted.
