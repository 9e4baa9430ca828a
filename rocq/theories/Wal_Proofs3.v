(** Overwriting, compacting, snapshots and reopening: every reachable state is good. *)
From Coq Require Import List ZArith Lia Bool.
From Verif Require Import Base Rle_Model Rle_Spec Rle_Proofs Wal_Model Wal_Spec Wal_Proofs Wal_Proofs2.
Import ListNotations.
Open Scope Z_scope.

Section W.
Context (c : codec) (ok : codec_ok c).
Notation image := (image c).
Notation parsOf := (parsOf c).
Notation parImage := (parImage c).
Notation linked := (linked c).
Notation slotted := (slotted c).
Notation offsets := (offsets c).
Notation goodJ := (goodJ c).
Notation good := (good c).

(** ** Filters of a linked log *)

Lemma linked_index : forall log i t, linked i t log -> consecutive (i + 1) (map fst log).
Proof.
  induction log as [|[e b] log IH]; intros i t H; cbn [map fst consecutive]; [exact I|].
  cbn [Wal_Proofs.linked] in H. destruct H as (_ & Hi & _ & _ & _ & _ & H). split; [exact Hi|]. exact (IH _ _ H).
Qed.
Lemma filter_le : forall es i k, consecutive (i + 1) es ->
  filter (fun e => eIndex e <=? k) es = firstn (Z.to_nat (k - i)) es.
Proof.
  induction es as [|e es IH]; intros i k H; [rewrite firstn_nil; reflexivity|].
  cbn [consecutive] in H. destruct H as [He H]. cbn [filter]. rewrite He.
  destruct (Z.leb_spec (i + 1) k).
  - replace (Z.to_nat (k - i)) with (S (Z.to_nat (k - (i + 1)))) by lia. cbn [firstn]. f_equal. apply IH. exact H.
  - replace (Z.to_nat (k - i)) with O by lia. cbn [firstn].
    rewrite (IH (i + 1) k H). replace (Z.to_nat (k - (i + 1))) with O by lia. reflexivity.
Qed.
Lemma filter_gt : forall es i k, consecutive (i + 1) es ->
  filter (fun e => k <? eIndex e) es = skipn (Z.to_nat (k - i)) es.
Proof.
  induction es as [|e es IH]; intros i k H; [rewrite skipn_nil; reflexivity|].
  cbn [consecutive] in H. destruct H as [He H]. cbn [filter]. rewrite He.
  destruct (Z.ltb_spec k (i + 1)).
  - replace (Z.to_nat (k - i)) with O by lia. cbn [skipn]. f_equal.
    rewrite (IH (i + 1) k H). replace (Z.to_nat (k - (i + 1))) with O by lia. reflexivity.
  - replace (Z.to_nat (k - i)) with (S (Z.to_nat (k - (i + 1)))) by lia. cbn [skipn]. apply IH. exact H.
Qed.
Lemma filter_lt : forall es k, filter (fun e => eIndex e <? k) es = filter (fun e => eIndex e <=? k - 1) es.
Proof. intros. apply filter_ext. intros e. destruct (Z.ltb_spec (eIndex e) k), (Z.leb_spec (eIndex e) (k - 1)); lia || reflexivity. Qed.
Lemma filter_ge : forall es k, filter (fun e => k <=? eIndex e) es = filter (fun e => k - 1 <? eIndex e) es.
Proof. intros. apply filter_ext. intros e. destruct (Z.leb_spec k (eIndex e)), (Z.ltb_spec (k - 1) (eIndex e)); lia || reflexivity. Qed.

Lemma entries_len : forall w, length (entries w) = length (raftLog w).
Proof. intros. apply map_length. Qed.
Lemma good_consecutive : forall w d j, goodJ w d j -> consecutive (BaseC (logIndex w) + 1) (entries w).
Proof. intros w d j G. destruct (g_link _ _ _ _ G) as (t & H). exact (linked_index _ _ _ H). Qed.
Lemma good_kept : forall w d j i, goodJ w d j ->
  kept w i = Nat.min (Z.to_nat (i - BaseC (logIndex w))) (length (raftLog w)).
Proof.
  intros w d j i G. unfold kept. rewrite (filter_le _ _ _ (good_consecutive _ _ _ G)), firstn_length, entries_len. reflexivity.
Qed.
Lemma good_nonneg : forall w d j, goodJ w d j -> 0 <= BaseC (logIndex w).
Proof. intros w d j G. apply (g_idx _ _ _ _ G). Qed.
Lemma good_first : forall w d j e b l, goodJ w d j -> raftLog w = (e, b) :: l ->
  eIndex e = BaseC (logIndex w) + 1 /\ ePrevIndex e = BaseC (logIndex w).
Proof.
  intros w d j e b l G E. destruct (g_link _ _ _ _ G) as (t & H). rewrite E in H. cbn [Wal_Proofs.linked] in H.
  destruct H as (A & B & _). auto.
Qed.
Lemma good_lastIdx : forall w d j, goodJ w d j -> raftLog w <> [] ->
  (match rev (raftLog w) with (e, _) :: _ => eIndex e | [] => 0 end) = lli w.
Proof.
  intros w d j G Hne. destruct (g_link _ _ _ _ G) as (t & H). rewrite (g_lli _ _ _ _ G).
  destruct (rev (raftLog w)) as [|[e b] r] eqn:E.
  { apply (f_equal (@rev _)) in E. rewrite rev_involutive in E. cbn [rev] in E. congruence. }
  apply rev_cons_last in E. rewrite E in *. apply linked_app in H as [_ H]. cbn [Wal_Proofs.linked] in H.
  destruct H as (_ & H & _). rewrite app_length, rev_length in *. cbn [length]. lia.
Qed.

(** ** Positions *)

Definition limOk (lim : option Z) (w : wal) : Prop :=
  match lim with
  | None => begseekpos w = offsets 0 [] (raftLog w)
  | Some l => forall k, Z.of_nat k <= l ->
      (k <= length (raftLog w))%nat /\ nth_error (begseekpos w) k = Some (length (image [] (firstn k (raftLog w))))
  end.
Lemma offsets_app : forall a b, offsets 0 [] (a ++ b) = offsets 0 [] a ++ offsets (length (image [] a)) a b.
Proof.
  intros a b. unfold Wal_Proofs.offsets. rewrite app_length, seq_app, map_app. f_equal.
  - apply map_ext_in. intros k Hk. apply in_seq in Hk. rewrite firstn_app.
    replace (k - length a)%nat with O by lia. cbn [firstn]. rewrite app_nil_r. reflexivity.
  - cbn [Nat.add]. 
    assert (E : forall n x, seq x n = map (fun k => (x + k)%nat) (seq 0 n)).
    { clear. induction n as [|n IH]; intros x; [reflexivity|].
      cbn [seq map]. rewrite Nat.add_0_r. f_equal. rewrite <- (seq_shift n 0), map_map, (IH (S x)).
      apply map_ext. intros. lia. }
    rewrite E, map_map. apply map_ext. intros k. rewrite firstn_app_2, image_app, app_length. cbn [app]. reflexivity.
Qed.
Lemma offsets_nth : forall log k, (k < length log)%nat ->
  nth_error (offsets 0 [] log) k = Some (length (image [] (firstn k log))).
Proof.
  intros log k H. unfold Wal_Proofs.offsets.
  rewrite (map_nth_error _ k (seq 0 (length log)) (d := k)); [reflexivity|].
  rewrite (nth_error_nth' _ 0%nat) by (rewrite seq_length; exact H). rewrite seq_nth by exact H. reflexivity.
Qed.
Lemma offsets_len : forall pos pre log, length (offsets pos pre log) = length log.
Proof. intros. unfold Wal_Proofs.offsets. rewrite map_length, seq_length. reflexivity. Qed.

Lemma nth_error_ext : forall A (a b : list A), length a = length b ->
  (forall k, (k < length b)%nat -> nth_error a k = nth_error b k) -> a = b.
Proof.
  induction a as [|x a IH]; intros [|y b] Hl H; cbn [length] in Hl; try discriminate; [reflexivity|].
  f_equal. { specialize (H O ltac:(cbn; lia)). cbn in H. congruence. }
  apply IH; [lia|]. intros k Hk. exact (H (S k) ltac:(cbn; lia)).
Qed.

Lemma lim_seek : forall lim w k, limOk lim w -> within lim k -> (k < length (raftLog w))%nat ->
  nth_error (begseekpos w) k = Some (length (image [] (firstn k (raftLog w)))) /\
  firstn k (begseekpos w) = offsets 0 [] (firstn k (raftLog w)).
Proof.
  intros lim w k HL Hw Hk.
  assert (All : forall k', (k' <= k)%nat -> nth_error (begseekpos w) k' = Some (length (image [] (firstn k' (raftLog w))))).
  { intros k' Hk'. destruct lim as [l|]; cbn [limOk within] in *.
    - apply HL. lia.
    - rewrite HL. apply offsets_nth. lia. }
  split; [apply All; lia|].
  assert (Hlen : (k < length (begseekpos w))%nat).
  { apply nth_error_Some. rewrite (All k) by lia. discriminate. }
  apply nth_error_ext.
  - rewrite offsets_len, !firstn_length. lia.
  - intros k' Hk'. rewrite offsets_len, firstn_length in Hk'.
    rewrite nth_error_firstn_lt by lia. rewrite All by lia.
    rewrite offsets_nth by (rewrite firstn_length; lia). rewrite firstn_firstn. do 4 f_equal. lia.
Qed.
Lemma lim_append : forall lim w w' log, limOk lim w -> raftLog w' = raftLog w ++ log ->
  fdpos w = length (image [] (raftLog w)) ->
  begseekpos w' = begseekpos w ++ offsets (fdpos w) (raftLog w) log -> limOk lim w'.
Proof.
  intros lim w w' log H E1 Ef E2. destruct lim as [l|]; cbn [limOk] in *.
  - intros k Hk. destruct (H k Hk) as [A B]. rewrite E1, E2. split; [rewrite app_length; lia|].
    rewrite nth_error_app1 by (apply nth_error_Some; congruence). rewrite firstn_app.
    replace (k - length (raftLog w))%nat with O by lia. cbn [firstn]. rewrite app_nil_r. exact B.
  - rewrite E2, H, E1, offsets_app, Ef. reflexivity.
Qed.

(** ** Saving *)

Lemma save_step : forall w d lim e ops w', good w d -> limOk lim w -> okEntry c e ->
  saveRaftLogEntry c e w = (ops, Ok w') ->
  good w' (applyAll ops d) /\ limOk lim w' /\ content w' = sAppend (content w) e.
Proof.
  intros w d lim e ops w' [G L] HL He H. unfold saveRaftLogEntry in H.
  destruct (saveEntry_good c ok _ _ _ _ _ _ _ G (He _ _) H) as (G' & L' & C).
  rewrite skipn_nil in G'. split; [split; assumption|]. split; [|exact C].
  destruct (saveEntry_cases c _ _ _ _ _ _ _ G H) as [[_ X]|(_ & _ & _ & [(_ & X & _)|(w'' & sl & _ & _ & Hw & D1 & _ & _ & D4 & _)])]; try discriminate.
  injection Hw as <-. eapply lim_append; [exact HL|exact D1|apply (g_pos _ _ _ _ G)|].
  rewrite D4. unfold Wal_Proofs.offsets. cbn. rewrite Nat.add_0_r. reflexivity.
Qed.

(** ** Overwriting *)

Lemma firstn_linked : forall log n i t, linked i t log -> linked i t (firstn n log).
Proof. intros log n i t H. rewrite <- (firstn_skipn n log) in H. apply linked_app in H. apply H. Qed.
Lemma terms_firstn : forall n log, terms (firstn n log) = firstn n (terms log).
Proof. intros. unfold terms. symmetry. apply firstn_map. Qed.
Lemma linked_last_ge : forall log i t, linked i t log -> t <= last (terms log) t.
Proof.
  induction log as [|[e b] log IH]; intros i t H; [cbn; lia|]. cbn [Wal_Proofs.linked] in H.
  destruct H as (_ & _ & _ & Ht & _ & _ & H). specialize (IH _ _ H). unfold terms in *. cbn [map fst]. rewrite last_cons. lia.
Qed.
Lemma linked_t : forall w d j, goodJ w d j -> linked (BaseC (logIndex w)) (sBaseTerm (content w)) (raftLog w).
Proof.
  intros w d j G. destruct (g_link _ _ _ _ G) as (t & H). unfold content. cbn [sBaseTerm].
  destruct (raftLog w) as [|[e b] l]; [exact I|]. replace (ePrevTerm e) with t; [exact H|].
  cbn [Wal_Proofs.linked] in H. symmetry. apply H.
Qed.

Lemma last_firstn_nth : forall (l : list Z) n d, (0 < n <= length l)%nat -> nth_error l (n - 1) = Some (last (firstn n l) d).
Proof.
  induction l as [|x l IH]; intros n d H; cbn [length] in H; [lia|].
  destruct n as [|[|n]]; [lia|reflexivity|]. replace (S (S n) - 1)%nat with (S n) by lia.
  change (firstn (S (S n)) (x :: l)) with (x :: firstn (S n) l). rewrite last_cons. cbn [nth_error].
  specialize (IH (S n) x ltac:(lia)). replace (S n - 1)%nat with n in IH by lia. exact IH.
Qed.

Lemma parImage_firstn : forall k ps, Forall slotted ps -> (k <= length ps)%nat -> pad (k * 400) (parImage ps) = parImage (firstn k ps).
Proof.
  intros k ps Hs Hk. rewrite <- (firstn_skipn k ps) at 1. rewrite parImage_app.
  assert (H1 : Forall slotted (firstn k ps)).
  { apply Forall_forall. intros p Hp. rewrite Forall_forall in Hs. apply Hs.
    rewrite <- (firstn_skipn k ps). apply in_or_app. auto. }
  assert (El : (k * 400 = length (parImage (firstn k ps)))%nat).
  { rewrite (parImage_len c ok) by exact H1. rewrite firstn_length. lia. }
  rewrite El. apply pad_exact.
Qed.

(** the log cut to its first [kc] entries *)
Lemma cut_good : forall cfg w d k kc oc es commit ops w1, good w d -> (kc < length (raftLog w))%nat ->
  k = BaseC (logIndex w) + Z.of_nat kc ->
  nth_error (begseekpos w) kc = Some (length (image [] (firstn kc (raftLog w)))) ->
  firstn kc (begseekpos w) = offsets 0 [] (firstn kc (raftLog w)) ->
  cut cfg k kc oc es commit w = (ops, Ok w1) ->
  es <> [] /\ ops = [PTrunc (kc * 400); PSync] /\
  goodJ w1 (applyAll ops d) (image (firstn kc (raftLog w)) (skipn kc (raftLog w))) /\ limOk None w1 /\
  raftLog w1 = firstn kc (raftLog w) /\ BaseC (logIndex w1) = BaseC (logIndex w) /\ prevApplied w1 = prevApplied w /\
  (kc = O -> llt w1 = 0 /\ lastTerm (logIndex w1) = CompactTerm (logIndex w)) /\
  (kc <> O -> llt w1 = lastTerm (logIndex w1) /\ sBaseTerm (content w1) = sBaseTerm (content w)).
Proof.
  intros cfg w d k kc oc es commit ops w1 [G L] Hkc Ek Hbeg Hoff H. unfold cut in H. rewrite Hbeg in H.
  mok H. mok H. mok H. mok H. mok H. apply ret_ok in H as [<- ->]. subst. rewrite !app_nil_r. cbn [app].
  assert (Hn : kc <> length (parlog w)) by (rewrite (g_pars _ _ _ _ G), parsOf_len; lia).
  apply Nat.eqb_neq in Hn. rewrite Hn. clear H1 H2.
  pose proof (good_nonneg _ _ _ G) as Hb.
  destruct (Truncate_ok _ _ (BaseC (logIndex w) + Z.of_nat kc) (g_idx _ _ _ _ G) ltac:(lia)) as (s' & Hs & HW & _ & HC1 & HC2).
  rewrite H3 in Hs. injection Hs as ->. clear x. rename s' into x.
  pose proof (linked_t _ _ _ G) as Hlk.
  assert (EB : BaseC x = BaseC (logIndex w)).
  { destruct HW as [Hbase _ _ _ _]. rewrite Hbase. cbn [pstep pBase].
    replace (_ <? _) with false by (symmetry; apply Z.ltb_ge; lia). reflexivity. }
  assert (HW' : refW x (mkPlog (BaseC x) 0 (terms (firstn kc (raftLog w))))).
  { rewrite EB, terms_firstn. cbn [pstep pBase pTerms pBaseTerm] in HW.
    replace (BaseC (logIndex w) + Z.of_nat kc <? BaseC (logIndex w)) with false in HW by (symmetry; apply Z.ltb_ge; lia).
    replace (Z.to_nat (BaseC (logIndex w) + Z.of_nat kc - BaseC (logIndex w))) with kc in HW by lia. exact HW. }
  assert (HCt : kc = O -> CompactTerm x = CompactTerm (logIndex w)).
  { intros ->. apply HC1. left. cbn [pBase]. lia. }
  assert (Htl : forall d0, (0 < kc)%nat -> last (terms (firstn kc (raftLog w))) d0 = CompactTerm x).
  { intros d0 Hp. cbn [pBase pTerms] in HC2. unfold pEnd in HC2. cbn [pBase pTerms] in HC2.
    assert (Hlen : length (terms (raftLog w)) = length (raftLog w)) by (unfold terms; apply map_length).
    specialize (HC2 ltac:(rewrite Hlen; lia)). unfold pTermAt in HC2. cbn [pBase pTerms] in HC2.
    replace (BaseC (logIndex w) <? BaseC (logIndex w) + Z.of_nat kc) with true in HC2 by (symmetry; apply Z.ltb_lt; lia).
    replace (Z.to_nat (BaseC (logIndex w) + Z.of_nat kc - BaseC (logIndex w) - 1)) with (kc - 1)%nat in HC2 by lia.
    rewrite (last_firstn_nth _ kc d0) in HC2 by lia. rewrite terms_firstn. congruence. }
  assert (HltS : forall d0, (0 < kc)%nat -> lastTerm x = last (terms (firstn kc (raftLog w))) d0).
  { intros d0 Hp. rewrite (lastTerm_spec _ _ HW'). cbn [pTerms]. apply last_def. rewrite terms_firstn.
    destruct kc; [lia|]. destruct (raftLog w); [cbn in Hkc; lia|]. discriminate. }
  split. { intros ->. discriminate H0. }
  split; [reflexivity|].
  set (w1 := {| raftLog := firstn kc (raftLog w); lli := _; llt := _; begseekpos := _; fdpos := _; logIndex := x; parlog := _; prevApplied := _ |}).
  assert (Hbt : kc <> O -> sBaseTerm (content w1) = sBaseTerm (content w)).
  { intros Hp. unfold content, w1. cbn [sBaseTerm raftLog]. destruct kc; [lia|]. destruct (raftLog w) as [|[e0 b0] l0]; [cbn in Hkc; lia|]. reflexivity. }
  split; [|split; [|split; [reflexivity|split; [exact EB|split; [reflexivity|split]]]]].
  - constructor; cbn [w1 raftLog parlog logIndex lli fdpos].
    + cbn [applyAll fold_left apply dWal]. rewrite (g_wal _ _ _ _ G), app_nil_r.
      rewrite <- (firstn_skipn kc (raftLog w)) at 1. rewrite image_app. reflexivity.
    + unfold applyAll. cbn [fold_left apply dPar]. rewrite (g_par _ _ _ _ G).
      apply parImage_firstn; [apply (g_slot _ _ _ _ G)|]. rewrite (g_pars _ _ _ _ G), parsOf_len. lia.
    + rewrite (g_pars _ _ _ _ G). rewrite <- (firstn_skipn kc (raftLog w)) at 1. rewrite parsOf_app.
      apply firstn_app_exact. rewrite parsOf_len, firstn_length. lia.
    + apply Forall_forall. intros p Hp. pose proof (g_slot _ _ _ _ G) as Hs. rewrite Forall_forall in Hs. apply Hs.
      rewrite <- (firstn_skipn kc (parlog w)). apply in_or_app. auto.
    + rewrite EB. exists (sBaseTerm (content w)). apply firstn_linked. exact Hlk.
    + exact HW'.
    + pose proof (g_bt _ _ _ _ G) as Hgb. destruct kc as [|kc'].
      * unfold content, w1. cbn [sBaseTerm raftLog firstn logIndex]. rewrite (HCt eq_refl). lia.
      * rewrite Hbt by discriminate. rewrite <- (Htl (sBaseTerm (content w))) by lia.
        split; [lia|]. apply (linked_last_ge _ (BaseC (logIndex w))). apply firstn_linked. exact Hlk.
    + destruct kc as [|kc'].
      * rewrite (lastTerm_spec _ _ HW'). cbn. lia.
      * rewrite (HltS 0), (Htl 0) by lia. lia.
    + rewrite EB, firstn_length. lia.
    + reflexivity.
  - cbn [limOk w1 begseekpos raftLog]. exact Hoff.
  - intros ->. cbn [w1 llt logIndex firstn rev]. split; [reflexivity|].
    rewrite (lastTerm_spec _ _ HW'). cbn [pTerms firstn terms map last]. apply HCt. reflexivity.
  - intros Hp. split; [|exact (Hbt Hp)]. cbn [w1 llt logIndex]. rewrite (HltS 0) by lia.
    destruct (rev (firstn kc (raftLog w))) as [|[e0 b0] r] eqn:Er.
    + apply (f_equal (@length _)) in Er. rewrite rev_length, firstn_length in Er. cbn in Er. lia.
    + apply rev_cons_last in Er. rewrite Er. unfold terms. rewrite map_app. symmetry. apply last_last.
Qed.

Lemma plan_spec : forall w d i es, good w d -> consecutive (i + 1) es ->
  match plan i es w with
  | None => i < BaseC (logIndex w) /\ i + Z.of_nat (length es) <= BaseC (logIndex w)
  | Some (k, es', kc, oc) =>
      ~ (i < BaseC (logIndex w) /\ i + Z.of_nat (length es) <= BaseC (logIndex w)) /\
      es' = filter (fun e => BaseC (logIndex w) <? eIndex e) es /\
      Z.to_nat oc = (length (raftLog w) - kept w i)%nat /\
      ((kept w i < length (raftLog w))%nat -> Z.to_nat kc = kept w i /\ k = BaseC (logIndex w) + Z.of_nat (kept w i))
  end.
Proof.
  intros w d i es [G L] Hc. unfold plan.
  assert (Eb : barrier w = BaseC (logIndex w)).
  { unfold barrier. destruct (raftLog w) as [|[e0 b0] l] eqn:E; [rewrite (g_lli _ _ _ _ G), E; cbn; lia|].
    destruct (good_first _ _ _ _ _ _ G E). lia. }
  rewrite Eb. set (B := BaseC (logIndex w)) in *.
  destruct ((i <? B) && (i + Z.of_nat (length es) <=? B)) eqn:En.
  { apply andb_prop in En as [E1 E2]. apply Z.ltb_lt in E1. apply Z.leb_le in E2. lia. }
  assert (Hn : ~ (i < B /\ i + Z.of_nat (length es) <= B)).
  { intros [H1 H2]. apply Z.ltb_lt in H1. apply Z.leb_le in H2. rewrite H1, H2 in En. discriminate. }
  rewrite (filter_gt es i B Hc).
  assert (Ees : (if i <? B then (B, skipn (Z.to_nat (B - i)) es) else (i, es)) = (Z.max i B, skipn (Z.to_nat (B - i)) es)).
  { destruct (Z.ltb_spec i B); f_equal; try lia. replace (Z.to_nat (B - i)) with O by lia. reflexivity. }
  rewrite Ees. pose proof (good_kept _ _ _ i G) as Hk. fold B in Hk.
  destruct (raftLog w) as [|[e0 b0] l] eqn:El.
  { split; [exact Hn|]. split; [reflexivity|]. cbn [length] in *. split; [cbn; lia|lia]. }
  rewrite <- El in *. destruct (good_first _ _ _ _ _ _ G El) as [He0 _]. fold B in He0.
  rewrite (good_lastIdx _ _ _ G) by (rewrite El; discriminate). rewrite He0.
  pose proof (g_lli _ _ _ _ G) as Hlli. fold B in Hlli.
  assert (Hlen : (0 < length (raftLog w))%nat) by (rewrite El; cbn; lia).
  destruct (Z.leb_spec (lli w) (Z.max i B)).
  { split; [exact Hn|]. split; [reflexivity|]. split; [cbn|]; lia. }
  destruct (Z.ltb_spec (Z.max i B) (B + 1)).
  { split; [exact Hn|]. split; [reflexivity|]. split; lia. }
  split; [exact Hn|]. split; [reflexivity|]. split; lia.
Qed.

Lemma content_keep : forall w d j i, goodJ w d j -> sKeep (content w) i =
  mkS (BaseC (logIndex w)) (sBaseTerm (content w)) (firstn (kept w i) (entries w)).
Proof.
  intros w d j i G. unfold sKeep. cbn [content sBase sLog sBaseTerm].
  rewrite (filter_le _ _ _ (good_consecutive _ _ _ G)), (good_kept _ _ _ i G). f_equal.
  rewrite <- entries_len. destruct (Nat.le_ge_cases (Z.to_nat (i - BaseC (logIndex w))) (length (entries w))).
  - rewrite Nat.min_l by lia. reflexivity.
  - rewrite Nat.min_r, firstn_all by lia. apply firstn_all2. lia.
Qed.

Lemma rewrite_good : forall cfg w d lim i k kc oc es commit ops w2, good w d -> limOk lim w ->
  okAll c (sKeep (content w) i) es ->
  ((kept w i < length (raftLog w))%nat -> within lim (kept w i) /\ kc = kept w i /\ k = BaseC (logIndex w) + Z.of_nat (kept w i)) ->
  oc = (length (raftLog w) - kept w i)%nat ->
  rewrite c cfg k kc oc es commit w = (ops, Ok w2) ->
  good w2 (applyAll ops d) /\ content w2 = sAppendAll (sKeep (content w) i) es /\
  limOk (if (kept w i <? length (raftLog w))%nat then None else lim) w2 /\
  prevApplied w2 = prevApplied w.
Proof.
  intros cfg w d lim i k kc oc es commit ops w2 GG HL Hes Hlt Eoc H. pose proof GG as [G L].
  unfold rewrite in H. mok H. mok H. mok H. apply ret_ok in H as [<- ->]. subst. rewrite app_nil_r.
  destruct (Nat.ltb_spec (kept w i) (length (raftLog w))) as [Hk|Hk].
  - destruct (Hlt Hk) as (Hwi & -> & ->). destruct (lim_seek lim w _ HL Hwi Hk) as [Hs1 Hs2].
    assert (Hoc : (length (raftLog w) - kept w i =? 0)%nat = false) by (apply Nat.eqb_neq; lia). rewrite Hoc in *.
    destruct (cut_good _ _ _ _ _ _ _ _ _ _ GG Hk eq_refl Hs1 Hs2 H0) as (Hne & Eo & G1 & P1 & R1 & B1 & PA & Z1 & Z2).
    assert (EK : content x = sKeep (content w) i).
    { rewrite (content_keep _ _ _ i G). unfold content. rewrite B1.
      assert (Ebt : sBaseTerm (content x) = sBaseTerm (content w)).
      { destruct (kept w i) as [|m] eqn:Em; [|apply Z2; discriminate].
        destruct (Z1 eq_refl) as [L0 LT].
        destruct es as [|e es]; [congruence|]. cbn [saveAll] in H1. mok H1.
        destruct (saveEntry_cases c _ _ _ _ _ _ _ G1 H) as [[_ X]|(Hll & _)]; [discriminate|].
        pose proof (g_bt _ _ _ _ G). rewrite L0, LT in Hll.
        unfold content at 1. rewrite R1. cbn [firstn sBaseTerm].
        pose proof (lastTerm_spec _ _ (g_idx _ _ _ _ G1)) as X. rewrite R1 in X. cbn [firstn pTerms terms map last] in X. lia. }
      unfold content in Ebt. cbn [sBaseTerm] in Ebt. rewrite Ebt. f_equal.
      unfold entries. rewrite R1, firstn_map. reflexivity. }
    rewrite <- EK in Hes.
    destruct (saveAll_good c ok _ _ _ _ _ _ G1 Hes H1) as (n & A1 & A2 & A3 & _ & A5 & A6 & log & A7 & A8).
    rewrite <- EK. split; [|split; [exact A2|split; [|congruence]]].
    + split; [|exact (A3 Hne)]. rewrite !applyAll_app.
      set (dd := applyAll o1 (applyAll o d)) in *.
      assert (Ej : skipn n (image (firstn (kept w i) (raftLog w)) (skipn (kept w i) (raftLog w))) = [] \/ (fdpos x0 < fdpos w)%nat).
      { destruct (Nat.ltb_spec (fdpos x0) (fdpos w)) as [|Hge]; [auto|]. left. apply skipn_all2.
        rewrite A5, (g_pos _ _ _ _ G1), (g_pos _ _ _ _ G), R1 in Hge.
        assert (Ei : length (image [] (raftLog w)) = (length (image [] (firstn (kept w i) (raftLog w))) +
          length (image (firstn (kept w i) (raftLog w)) (skipn (kept w i) (raftLog w))))%nat).
        { rewrite <- (firstn_skipn (kept w i) (raftLog w)) at 1. rewrite image_app, app_length. reflexivity. }
        lia. }
      cbn [negb]. destruct (Nat.ltb_spec (fdpos x0) (fdpos w)) as [Hlt'|Hge]; cbn [andb app].
      * change (goodJ x0 (mkD (pad (fdpos x0) (dWal dd)) (dPar dd)) []).
        destruct A1. constructor; cbn [dWal dPar]; auto.
        rewrite g_wal, g_pos, app_nil_r. apply pad_exact.
      * destruct Ej as [Ej|Ej]; [|lia]. rewrite Ej in A1. exact A1.
    + eapply lim_append; [exact P1|exact A7|apply (g_pos _ _ _ _ G1)|exact A8].
  - assert (E0 : (length (raftLog w) - kept w i =? 0)%nat = true) by (apply Nat.eqb_eq; lia). rewrite E0 in *. cbn [negb andb app].
    apply ret_ok in H0 as [<- ->].
    assert (EK : content w = sKeep (content w) i).
    { rewrite (content_keep _ _ _ i G). rewrite firstn_all2; [reflexivity|]. rewrite entries_len. exact Hk. }
    rewrite <- EK in *.
    destruct (saveAll_good c ok _ _ _ _ _ _ G Hes H1) as (n & A1 & A2 & _ & A4 & A5 & A6 & log & A7 & A8).
    rewrite skipn_nil in A1. split; [|split; [exact A2|split; [|exact A6]]].
    + split; [|exact (A4 L)]. rewrite !applyAll_app. exact A1.
    + eapply lim_append; [exact HL|exact A7|apply (g_pos _ _ _ _ G)|exact A8].
Qed.

(** ** Compacting *)

Lemma relink : forall log s, linked (sLastIndex s) (sLastTerm s) log ->
  sAppendAll s (map fst log) = mkS (sBase s) (sBaseTerm s) (sLog s ++ map fst log) /\ okAll c s (map fst log).
Proof.
  induction log as [|[e b] log IH]; intros s H; cbn [map fst okAll].
  - unfold sAppendAll. cbn. rewrite app_nil_r. destruct s; auto.
  - cbn [Wal_Proofs.linked] in H. destruct H as (A & B & C & _ & -> & F & H).
    assert (Es : stamp s e = e) by (unfold stamp; rewrite <- A, <- C; destruct e; reflexivity).
    destruct (IH (sAppend s e)) as [I1 I2].
    { unfold sAppend. rewrite Es. unfold sLastIndex, sLastTerm in *. cbn [sBase sLog sBaseTerm].
      rewrite app_length, map_app. cbn [map length]. rewrite last_last.
      replace (sBase s + Z.of_nat (length (sLog s) + 1)) with (sBase s + Z.of_nat (length (sLog s)) + 1) by lia. exact H. }
    split; [|rewrite Es; auto].
    change (sAppendAll s (e :: map fst log)) with (sAppendAll (sAppend s e) (map fst log)). rewrite I1.
    unfold sAppend. rewrite Es. cbn [sBase sBaseTerm sLog]. rewrite <- app_assoc. reflexivity.
Qed.

(** the three ways a compaction ends *)
Definition compacted (w w' : wal) (d : disk) (k : Z) (p f : bytes) : Prop :=
  BaseC (logIndex w) + 1 < k <= lli w /\ good w' (mkD f p) /\ content w' = sCompact (content w) k /\
  limOk (Some (Z.of_nat (length (raftLog w')))) w' /\ prevApplied w' = prevApplied w /\
  exists n, (0 < n < length (raftLog w))%nat /\ raftLog w' = skipn n (raftLog w).
Lemma compactGo_cases : forall w d k ops r, good w d -> compactGo c k w = (ops, r) ->
  (ops = [] /\ (r = Ok w \/ r = Panic)) \/ (ops = [PSync; WSync] /\ r = Panic) \/
  (exists w' p f, r = Ok w' /\ ops = [PSync; WSync; PNew p; WNew f; DirSync] /\ compacted w w' d k p f).
Proof.
  intros w d k ops r [G L] H. unfold compactGo in H.
  assert (N : ret w = (ops, r) -> (ops = [] /\ (r = Ok w \/ r = Panic)) \/ (ops = [PSync; WSync] /\ r = Panic) \/
    (exists w' p f, r = Ok w' /\ ops = [PSync; WSync; PNew p; WNew f; DirSync] /\ compacted w w' d k p f)).
  { intros X. injection X as <- <-. auto. }
  destruct (raftLog w) as [|[e0 b0] l] eqn:El. { exact (N H). }
  rewrite <- El in *. destruct (Z.leb_spec k 0). { exact (N H). }
  rewrite (good_lastIdx _ _ _ G) in H by (rewrite El; discriminate).
  destruct (Z.ltb_spec (lli w) k). { injection H as <- <-. auto. }
  destruct (good_first _ _ _ _ _ _ G El) as [He0 _]. rewrite He0 in H.
  destruct (Z.leb_spec k (BaseC (logIndex w))). { exact (N H). }
  destruct (Z.leb_spec k (BaseC (logIndex w) + 1)). { exact (N H). }
  cbn [orb] in H. clear N.
  pose proof (g_lli _ _ _ _ G) as Hlli. pose proof (good_nonneg _ _ _ G) as Hb. pose proof (linked_t _ _ _ G) as Hlk.
  set (n0 := Z.to_nat (k - (BaseC (logIndex w) + 1))) in *.
  assert (Hn0 : (0 < n0 < length (raftLog w))%nat) by (unfold n0; lia).
  assert (Hlen : length (terms (raftLog w)) = length (raftLog w)) by (unfold terms; apply map_length).
  assert (GI : refW (logIndex w) (mkPlog (BaseC (logIndex w)) (CompactTerm (logIndex w)) (terms (raftLog w)))).
  { destruct (g_idx _ _ _ _ G). constructor; auto. }
  destruct (CompactNewBeg_ok _ _ k GI) as (x & Hs & HW & Hct0).
  { right. unfold pEnd. cbn [pBase pTerms]. rewrite Hlen. lia. }
  { intros. right. cbn [pBase] in *. lia. }
  rewrite Hs in H. specialize (Hct0 eq_refl). cbn [lift bindM emit fst snd app] in H.
  assert (Hx : BaseC x = k - 1).
  { destruct HW as [Hbase _ _ _ _]. rewrite Hbase. cbn [pstep]. replace (k =? 0) with false by (symmetry; apply Z.eqb_neq; lia). reflexivity. }
  assert (Hct : CompactTerm x = last (firstn n0 (terms (raftLog w))) 0).
  { rewrite Hct0. cbn [pstep]. replace (k =? 0) with false by (symmetry; apply Z.eqb_neq; lia). cbn [pBaseTerm pBase].
    replace (k - 1 =? BaseC (logIndex w)) with false by (symmetry; apply Z.eqb_neq; lia).
    unfold pTermAt. cbn [pBase pTerms]. replace (BaseC (logIndex w) <? k - 1) with true by (symmetry; apply Z.ltb_lt; lia).
    replace (Z.to_nat (k - 1 - BaseC (logIndex w) - 1)) with (n0 - 1)%nat by (unfold n0; lia).
    rewrite (last_firstn_nth _ n0 0) by lia. reflexivity. }
  clear Hct0.
  set (log2 := skipn n0 (raftLog w)) in *.
  set (s2 := {| raftLog := []; lli := BaseC x; llt := CompactTerm x; begseekpos := []; fdpos := 0;
       logIndex := {| BaseC := BaseC x; Endi := BaseC x; Runs := []; CompactTerm := CompactTerm x |}; parlog := []; prevApplied := 0 |}) in *.
  assert (Hl2 : linked (k - 1) (CompactTerm x) log2).
  { rewrite <- (firstn_skipn n0 (raftLog w)) in Hlk. apply linked_app in Hlk as [_ Hlk]. fold log2 in Hlk.
    rewrite firstn_length, Nat.min_l in Hlk by lia. rewrite terms_firstn in Hlk.
    rewrite (last_def _ _ _ 0) in Hlk.
    - rewrite <- Hct in Hlk. replace (BaseC (logIndex w) + Z.of_nat n0) with (k - 1) in Hlk by (unfold n0; lia). exact Hlk.
    - intro X. apply (f_equal (@length _)) in X. rewrite firstn_length, Hlen in X. cbn in X. lia. }
  assert (Hct0 : 0 <= CompactTerm x).
  { rewrite Hct. pose proof (g_bt _ _ _ _ G).
    rewrite (last_def _ _ 0 (sBaseTerm (content w))).
    - rewrite <- terms_firstn. pose proof (linked_last_ge _ _ _ (firstn_linked _ n0 _ _ Hlk)). lia.
    - intro X. apply (f_equal (@length _)) in X. rewrite firstn_length, Hlen in X. cbn in X. lia. }
  assert (G2 : goodJ s2 (mkD [] []) []).
  { constructor; cbn [s2 raftLog parlog logIndex lli fdpos dWal dPar BaseC CompactTerm content sBaseTerm]; auto; try reflexivity.
    - exists 0. exact I.
    - constructor; cbn [BaseC Endi Runs pBase pTerms expand terms map]; try reflexivity; try lia; try constructor.
      unfold pEnd. cbn [pBase pTerms terms map length]. lia.
    - unfold lastTerm. cbn. lia.
    - cbn. lia. }
  destruct (saveAll c (map fst log2) s2) as [o2 r2] eqn:Es2. cbn [fst snd] in H.
  destruct r2 as [x1|]. 2: { cbn [lift bindM fst snd app] in H. injection H as <- <-. auto. }
  cbn [lift bindM fst snd app] in H.
  destruct (rleEqual x (logIndex x1)). 2: { cbn [check fail bindM fst snd app] in H. injection H as <- <-. auto. }
  cbn [check ret bindM emit fst snd app] in H. right. right.
  destruct (relink log2 (content s2)) as [RL1 RL2].
  { unfold sLastIndex, sLastTerm. cbn. rewrite Hx, Z.add_0_r. exact Hl2. }
  destruct (saveAll_good c ok _ _ _ _ _ _ G2 RL2 Es2) as (n & A1 & A2 & _ & _ & _ & _ & log & A7 & _).
  rewrite skipn_nil in A1. rewrite RL1 in A2. cbn [content sBase sBaseTerm sLog s2 app entries map raftLog logIndex BaseC CompactTerm] in A2.
  assert (Elog : raftLog x1 = log2).
  { rewrite (good_raw _ _ _ _ A1). rewrite (linked_raw _ _ _ _ Hl2). f_equal. 
    apply (f_equal sLog) in A2. cbn [content sLog] in A2. exact A2. }
  assert (Hne : log2 <> []).
  { intro X. apply (f_equal (@length _)) in X. unfold log2 in X. rewrite skipn_length in X. cbn in X. lia. }
  assert (EB1 : BaseC (logIndex x1) = k - 1) by (apply (f_equal sBase) in A2; cbn in A2; congruence).
  pose proof (g_wal _ _ _ _ A1) as Ew. rewrite app_nil_r, Elog in Ew.
  pose proof (g_par _ _ _ _ A1) as Ep.
  rewrite Ep, (newParLog_image c ok) in H by apply (g_slot _ _ _ _ A1). cbn [lift bindM fst snd app] in H.
  rewrite Ew in H.
  pose proof (g_pars _ _ _ _ A1) as Epp. rewrite Elog in Epp.
  destruct (load_good c ok log2 (mkW [] (lli w) (llt w) [] 0 (mkRle (BaseC x) 0 [] (CompactTerm x)) (parlog x1) (prevApplied w))
    (k - 1) (CompactTerm x) (dPar (applyAll o2 (mkD [] [])))) as (w'' & W1 & W2 & W3 & W4 & W5 & W6); auto; try lia.
  { repeat split. }
  { apply (g_slot _ _ _ _ A1). }
  rewrite W1 in H. cbn [lift bindM fst snd app] in H. injection H as <- <-.
  exists w'', (parImage (parlog x1)), (image [] log2). split; [reflexivity|]. split; [reflexivity|].
  rewrite Ep in W2. split; [lia|]. split; [exact W2|].
  split; [|split; [|split; [exact W5|exists n0; auto]]].
    - pose proof W2 as [GW _].
      assert (Ebt : sBaseTerm (content w'') = CompactTerm x).
      { unfold content. cbn [sBaseTerm]. rewrite W3. destruct log2 as [|[e2 b2] l2]; [congruence|]. cbn [Wal_Proofs.linked] in Hl2. apply Hl2. }
      unfold sCompact. rewrite filter_lt, filter_ge. cbn [content sLog sBase].
      rewrite (filter_le _ _ _ (good_consecutive _ _ _ G)), (filter_gt _ _ _ (good_consecutive _ _ _ G)).
      replace (Z.to_nat (k - 1 - BaseC (logIndex w))) with n0 by (unfold n0; lia).
      unfold content in Ebt |- *. cbn [sBaseTerm] in Ebt. rewrite Ebt, W4. f_equal.
      + rewrite Hct. rewrite <- firstn_map, <- terms_entries. apply last_def.
        intro X. apply (f_equal (@length _)) in X. rewrite firstn_length, Hlen in X. cbn in X. lia.
      + unfold entries. rewrite W3, skipn_map. reflexivity.
    - cbn [limOk]. intros k' Hk'. rewrite W3 in *. split; [lia|]. rewrite W6.
      destruct (Nat.eq_dec k' (length log2)) as [->|].
      + rewrite nth_error_app2 by (rewrite offsets_len; lia). rewrite offsets_len, Nat.sub_diag, firstn_all. reflexivity.
      + rewrite nth_error_app1 by (rewrite offsets_len; lia). apply offsets_nth. lia.
Qed.
Lemma compactGo_good : forall w d k ops w', good w d -> compactGo c k w = (ops, Ok w') ->
  (ops = [] /\ w' = w) \/
  (BaseC (logIndex w) + 1 < k <= lli w /\ good w' (applyAll ops d) /\ content w' = sCompact (content w) k /\
   limOk (Some (Z.of_nat (length (raftLog w')))) w' /\ compacts ops = true /\
   exists p f, ops = [PSync; WSync; PNew p; WNew f; DirSync] /\ prevApplied w' = prevApplied w).
Proof.
  intros w d k ops w' G H. destruct (compactGo_cases _ _ _ _ _ G H) as [[-> [X|X]]|[[-> X]|(w1 & p & f & X & -> & A & B & C & D & E & _)]]; try discriminate.
  - injection X as <-. auto.
  - injection X as <-. right. split; [exact A|]. split; [exact B|]. split; [exact C|]. split; [exact D|]. split; [reflexivity|]. eauto.
Qed.

Lemma compact_step : forall cfg w d lim k ops w', good w d -> limOk lim w -> compact c cfg k w = (ops, Ok w') ->
  good w' (applyAll ops d) /\ limOk (if compacts ops then Some (Z.of_nat (length (raftLog w'))) else lim) w' /\
  content w' = (if compacts ops then sCompact (content w) k else content w) /\
  (compacts ops = true -> sBase (content w) + 1 < k <= sLastIndex (content w)).
Proof.
  intros cfg w d lim k ops w' GG HL H. unfold compact in H. mok H. mok H. mok H.
  apply ret_ok in H as [-> ->]. subst. cbn [app]. rewrite app_nil_r.
  destruct (compactGo_good _ _ _ _ _ GG H1) as [[-> ->]|(A & B & C & D & E & _)].
  - cbn [compacts existsb applyAll fold_left]. split; [exact GG|]. split; [exact HL|]. split; [reflexivity|discriminate].
  - rewrite E. split; [exact B|]. split; [exact D|]. split; [exact C|]. intros _.
    destruct GG as [G _]. destruct (content_last c _ _ _ G) as [-> _]. exact A.
Qed.
Lemma good_prevApplied : forall w d a, good w d ->
  good (mkW (raftLog w) (lli w) (llt w) (begseekpos w) (fdpos w) (logIndex w) (parlog w) a) d.
Proof. intros w d a [G L]. split; [|exact L]. destruct G. constructor; auto. Qed.
Lemma maybeCompact_step : forall cfg w d lim a ops w', good w d -> limOk lim w -> maybeCompact c cfg a w = (ops, Ok w') ->
  good w' (applyAll ops d) /\ limOk (if compacts ops then Some (Z.of_nat (length (raftLog w'))) else lim) w' /\
  content w' = (if compacts ops then sCompact (content w) a else content w) /\
  (compacts ops = true -> sBase (content w) + 1 < a <= sLastIndex (content w)).
Proof.
  intros cfg w d lim a ops w' GG HL H. unfold maybeCompact in H.
  assert (N : ret w = (ops, Ok w') -> good w' (applyAll ops d) /\ limOk (if compacts ops then Some (Z.of_nat (length (raftLog w'))) else lim) w' /\
    content w' = (if compacts ops then sCompact (content w) a else content w) /\
    (compacts ops = true -> sBase (content w) + 1 < a <= sLastIndex (content w))).
  { intros X. apply ret_ok in X as [<- ->]. cbn [compacts existsb applyAll fold_left].
    split; [exact GG|]. split; [exact HL|]. split; [reflexivity|discriminate]. }
  destruct (noLogCompaction cfg); [exact (N H)|]. destruct (prevApplied w <? a); [|exact (N H)].
  exact (compact_step _ _ _ _ _ _ _ (good_prevApplied _ _ a GG) HL H).
Qed.

(** what an overwrite does, with the compaction that may follow it *)
Definition overwritten (s : plain) (i : Z) (es : list entry) (applied : Z) (ops : list op) (s' : plain) : Prop :=
  if compacts ops then s' = sCompact (sOverwrite s i es) applied /\
    sBase s + 1 < applied <= sLastIndex (sOverwrite s i es)
  else s' = sOverwrite s i es.

Lemma saveAll_nocompact : forall es w ops r, saveAll c es w = (ops, r) -> compacts ops = false.
Proof.
  assert (NC : forall o p, compacts (o ++ p) = compacts o || compacts p) by (intros; apply existsb_app).
  assert (One : forall b e w ops r, saveEntry c b e w = (ops, r) -> compacts ops = false).
  { intros b e w ops r H. apply (f_equal fst) in H. cbn [fst] in H. subst ops. unfold saveEntry, append1, check, lift, emit, ret, fail, bindM.
    repeat (match goal with |- context [if ?x then _ else _] => destruct x | |- context [match ?x with _ => _ end] => destruct x end;
      cbn [fst snd app compacts existsb orb]; try reflexivity). }
  induction es as [|e es IH]; intros w ops r H; cbn [saveAll] in H.
  - injection H as <- _. reflexivity.
  - unfold bindM in H. destruct (saveEntry c false e w) as [o1 r1] eqn:E. cbn [fst snd] in H.
    destruct r1 as [w1|]; [|injection H as <- _; exact (One _ _ _ _ _ E)].
    destruct (saveAll c es w1) as [o2 r2] eqn:E2. cbn [fst snd] in H. injection H as <- _.
    rewrite NC, (One _ _ _ _ _ E), (IH _ _ _ E2). reflexivity.
Qed.
Lemma rewrite_ne : forall cfg k kc oc es commit w ops w2, rewrite c cfg k kc oc es commit w = (ops, Ok w2) -> ops <> [].
Proof.
  intros cfg k kc oc es commit w ops w2 H. unfold rewrite in H. mok H. mok H. mok H. apply ret_ok in H as [<- ->]. subst.
  intro X. apply (f_equal (@length _)) in X. rewrite !app_length in X. cbn [length] in X. lia.
Qed.
Lemma rewrite_nocompact : forall cfg k kc oc es commit w ops w2, rewrite c cfg k kc oc es commit w = (ops, Ok w2) -> compacts ops = false.
Proof.
  assert (NC : forall o p, compacts (o ++ p) = compacts o || compacts p) by (intros; apply existsb_app).
  intros cfg k kc oc es commit w ops w2 H. unfold rewrite in H. mok H. mok H. mok H. apply ret_ok in H as [<- ->]. subst.
  rewrite NC, (NC o1), (saveAll_nocompact _ _ _ _ H1), app_nil_r. cbn [orb].
  replace (compacts ((if negb (oc =? 0)%nat && (fdpos x0 <? fdpos w)%nat then [WTrunc (fdpos x0)] else []) ++ [WSync])) with false
    by (destruct (_ && _); reflexivity). rewrite orb_false_r.
  destruct (oc =? 0)%nat. { apply ret_ok in H0 as [_ ->]. reflexivity. }
  unfold cut in H0. destruct (nth_error _ _); [|discriminate]. mok H0. mok H0. mok H0. mok H0. mok H0. apply ret_ok in H0 as [_ ->]. subst.
  cbn [app]. rewrite app_nil_r. destruct (kc =? length (parlog w))%nat; reflexivity.
Qed.

Lemma overwrite_step : forall cfg w d lim i es isLeader commit applied ops w', good w d -> limOk lim w ->
  Forall (okEntry c) es -> consecutive (i + 1) es ->
  ((kept w i < length (raftLog w))%nat -> within lim (kept w i)) ->
  overwriteEntries c cfg i es isLeader commit applied d w = (ops, Ok w') ->
  good w' (applyAll ops d) /\ limOk (limAfter lim w i ops w') w' /\
  overwritten (content w) i es applied ops (content w').
Proof.
  intros cfg w d lim i es isLeader commit applied ops w' GG HL Hok Hc Hw H. pose proof GG as [G _].
  unfold overwriteEntries in H. mok H. subst. cbn [app].
  pose proof (plan_spec w d i es GG Hc) as HP. cbn [content sBase] in *.
  destruct (plan i es w) as [[[[k es'] kc] oc]|].
  - destruct HP as (Hn & -> & Eoc & Hlt). mok H.
    assert (Ho : okAll c (sKeep (content w) i) (filter (fun e => BaseC (logIndex w) <? eIndex e) es)).
    { apply okAll_ok. apply Forall_forall. intros e He. apply filter_In in He as [He _]. rewrite Forall_forall in Hok. auto. }
    destruct (rewrite_good cfg w d lim i k (Z.to_nat kc) (Z.to_nat oc) _ commit _ _ GG HL Ho ltac:(intros X; split; [auto|exact (Hlt X)]) Eoc H1) as (A1 & A2 & A3 & _).
    pose proof (rewrite_nocompact _ _ _ _ _ _ _ _ _ H1) as HN.
    assert (ES : sAppendAll (sKeep (content w) i) (filter (fun e => BaseC (logIndex w) <? eIndex e) es) = sOverwrite (content w) i es).
    { unfold sOverwrite. cbn [content sBase]. destruct ((i <? BaseC (logIndex w)) && _) eqn:En; [|reflexivity].
      apply andb_prop in En as [E1 E2]. apply Z.ltb_lt in E1. apply Z.leb_le in E2. exfalso. auto. }
    rewrite ES in A2. rewrite H1 in H. cbn [fst] in H.
    assert (HC : compacts (o ++ o1) = compacts o1) by (unfold compacts in *; rewrite existsb_app, HN; reflexivity).
    subst. rewrite applyAll_app. unfold limAfter, overwritten. rewrite HC.
    assert (EO : forall T (a b : T), match o ++ o1 with [] => a | _ => b end = b).
    { intros. pose proof (rewrite_ne _ _ _ _ _ _ _ _ _ H1). destruct o; [congruence|reflexivity]. }
    rewrite EO. clear EO.
    assert (EBs : sBase (sOverwrite (content w) i es) = BaseC (logIndex w)).
    { clear -ES. rewrite <- ES.
      assert (X : forall l s, sBase (sAppendAll s l) = sBase s).
      { induction l as [|e l IH]; intros s; [reflexivity|]. unfold sAppendAll in *. cbn [fold_left]. rewrite IH. reflexivity. }
      rewrite X. reflexivity. }
    destruct (negb (noLogCompaction cfg) && _).
    + destruct (maybeCompact_step _ _ _ _ _ _ _ A1 A3 H) as (B1 & B2 & B3 & B4).
      rewrite A2 in *. split; [exact B1|]. split.
      * exact B2.
      * destruct (compacts o1); [|exact B3]. split; [exact B3|]. cbn [content sBase]. rewrite <- EBs. apply B4. reflexivity.
    + apply ret_ok in H as [<- ->]. cbn [compacts existsb applyAll fold_left]. auto.
  - apply ret_ok in H as [<- ->]. cbn [applyAll fold_left]. split; [exact GG|].
    assert (E : sOverwrite (content w) i es = content w).
    { unfold sOverwrite. cbn [content sBase].
      replace (i <? BaseC (logIndex w)) with true by (symmetry; apply Z.ltb_lt; lia).
      replace (i + Z.of_nat (length es) <=? BaseC (logIndex w)) with true by (symmetry; apply Z.leb_le; lia). reflexivity. }
    unfold limAfter, overwritten. cbn [compacts existsb]. rewrite E. split; [exact HL|reflexivity].
Qed.

(** ** Every reachable state *)

Lemma fresh_good : good (fresh []) (mkD [] []) /\ limOk None (fresh []).
Proof.
  split; [|reflexivity]. split; [|reflexivity]. constructor; cbn; auto; try lia.
  - exists 0. exact I.
  - constructor; cbn; try reflexivity; try lia. constructor.
Qed.
Lemma snapshot_step : forall w d i t ops w', good w d -> 0 <= i -> 0 <= t -> installedSnapshot i t w = (ops, Ok w') ->
  good w' (applyAll ops d) /\ content w' = mkS i t [].
Proof.
  intros w d i t ops w' [G L] Hi Ht H. unfold installedSnapshot in H. mok H. mok H. apply ret_ok in H as [<- ->]. subst.
  rewrite app_nil_r. split; [|reflexivity]. split; [|reflexivity].
  assert (Ed : applyAll ([WTrunc 0; WSync] ++ match parlog w with [] => [] | _ :: _ => [PTrunc 0; PSync] end) d = mkD [] []).
  { rewrite applyAll_app. unfold applyAll. cbn [fold_left apply dWal dPar]. pose proof (g_par _ _ _ _ G) as Hp.
    destruct (parlog w); cbn [fold_left apply dWal dPar]; [rewrite Hp|]; reflexivity. }
  rewrite Ed. constructor; cbn; auto; try lia.
  - exists 0. exact I.
  - constructor; cbn; try reflexivity; try lia; try constructor. unfold pEnd. cbn. lia.
Qed.
Lemma reopen_step : forall w d, good w d -> exists w', openWal c d = Ok w' /\ good w' d /\ entries w' = entries w /\
  (raftLog w <> [] -> content w' = content w) /\
  limOk (match raftLog w' with [] => None | l => Some (Z.of_nat (length l)) end) w'.
Proof.
  intros w d [G L]. pose proof (linked_t _ _ _ G) as Hl. pose proof (g_wal _ _ _ _ G) as Hw. pose proof (g_par _ _ _ _ G) as Hp.
  pose proof (g_pars _ _ _ _ G) as Hps. rewrite app_nil_r in Hw. unfold entries.
  destruct (raftLog w) as [|x l] eqn:El.
  - exists (fresh []). destruct d as [dw dp]. cbn [dWal dPar Wal_Proofs.image] in *. rewrite Hps in Hp. cbn in Hp. subst.
    split; [reflexivity|]. destruct fresh_good. split; [assumption|]. split; [reflexivity|]. split; [congruence|assumption].
  - rewrite <- El in *. assert (Hne : raftLog w <> []) by (rewrite El; discriminate).
    destruct (open_good c ok (raftLog w) d _ _ Hne Hl (good_nonneg _ _ _ G)) as (w' & A & B & C & D & E).
    + apply (g_bt _ _ _ _ G).
    + rewrite <- Hps. apply (g_slot _ _ _ _ G).
    + exact Hw.
    + rewrite <- Hps. exact Hp.
    + exists w'. split; [exact A|]. split; [exact B|]. rewrite C. split; [reflexivity|]. split.
      * intros _. unfold content, entries. rewrite C, D. destruct (raftLog w) as [|[e b] l']; [congruence|]. reflexivity.
      * rewrite El. rewrite <- El. cbn [limOk]. rewrite C. intros k Hk. split; [lia|]. rewrite E.
        destruct (Nat.eq_dec k (length (raftLog w))) as [->|].
        -- rewrite nth_error_app2 by (rewrite offsets_len; lia). rewrite offsets_len, Nat.sub_diag, firstn_all. reflexivity.
        -- rewrite nth_error_app1 by (rewrite offsets_len; lia). apply offsets_nth. lia.
Qed.

Theorem reach_good : forall cfg w d lim, reach c cfg w d lim -> good w d /\ limOk lim w.
Proof.
  intros cfg w d lim H. induction H.
  - exact fresh_good.
  - destruct IHreach as [G HL]. destruct (save_step _ _ _ _ _ _ G HL H0 H1) as (A & B & _). auto.
  - destruct IHreach as [G HL]. destruct (overwrite_step _ _ _ _ _ _ _ _ _ _ _ G HL H0 H1 H2 H3) as (A & B & _). auto.
  - destruct IHreach as [G HL]. destruct (compact_step _ _ _ _ _ _ _ G HL H0) as (A & B & _). split; [exact A|].
    unfold limAfter. destruct (compacts ops); [exact B|].
    replace (kept w (sLastIndex (content w)) <? length (raftLog w))%nat with false; [destruct ops; exact B|].
    symmetry. apply Nat.ltb_ge. pose proof G as [G' _]. rewrite (good_kept _ _ _ _ G'). unfold sLastIndex, content. cbn [sBase sLog].
    rewrite entries_len. lia.
  - destruct IHreach as [G HL]. destruct (snapshot_step _ _ _ _ _ _ G H0 H1 H2) as (A & _). split; [exact A|].
    cbn [limOk]. intros k Hk. lia.
  - destruct IHreach as [G HL]. destruct (reopen_step _ _ G) as (w'' & A & B & _ & _ & E). rewrite H0 in A. injection A as <-. auto.
Qed.
End W.
