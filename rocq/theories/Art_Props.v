(** C23, C24, C49: the radix tree is a map, its ordered searches and its
    iterators. *)
From Coq Require Import List ZArith Lia Bool Sorting.Sorted.
From Verif Require Import Base Art_Model Art_Node Art_Node2 Art_Tree Art_Tree2 Art_Tree3 Art_Search Art_Iter Art_Spec Art_Proofs Art_Hist.
Import ListNotations.
Open Scope Z_scope.

(** ** Trees for the examples *)
Fixpoint build (n : Z) (ks : list bytes) (t : tree) : res tree :=
  match ks with [] => Ok t | k :: r => do x <- insertLeaf (mkLeaf n k k) t ; build (n + 1) r (fst x) end.
Definition puts (ks : list bytes) : list entry := fold_left (fun m k => put k k m) ks [].
Definition noZero (k : bytes) : bool := forallb (fun x => (0 <? x) && (x <? 256)) k.

Lemma noZero_byte : forall k, noZero k = true -> Forall isByte k.
Proof. intros k H. apply Forall_forall. intros x Hx. apply (proj1 (forallb_forall _ _) H) in Hx. apply andb_true_iff in Hx as (A & B). apply Z.ltb_lt in A, B. unfold isByte. lia. Qed.
Lemma noZero_clash : forall a b, noZero a = true -> noZero b = true -> ~ clash a b.
Proof.
  assert (X : forall a r, noZero (a ++ 0 :: r) = true -> False).
  { intros a r H. unfold noZero in H. rewrite forallb_app in H. cbn in H. now rewrite andb_false_r in H. }
  intros a b A B (r & [-> | ->]); eauto.
Qed.
Lemma put_in : forall k v m e, In e (put k v m) -> e = (k, v) \/ In e m.
Proof.
  induction m as [|(k', v') m IH]; intros e H; cbn [put] in H; [cbn [In] in *; destruct H as [H|[]]; auto|].
  destruct (ltb k k'); [|destruct (sameb k k')]; cbn [In] in *; destruct H as [H|H]; auto. apply IH in H as [H|H]; auto.
Qed.
Lemma build_hist : forall ks n t m t', Hist n t m -> (forall e, In e m -> noZero (fst e) = true) -> forallb noZero ks = true -> build n ks t = Ok t' ->
  Hist (n + Z.of_nat (length ks)) t' (fold_left (fun m k => put k k m) ks m).
Proof.
  induction ks as [|k ks IH]; intros n t m t' H Hm Hk B; cbn [build fold_left length] in *.
  - injection B as <-. now rewrite Z.add_0_r.
  - apply andb_true_iff in Hk as (Zk & Hk). destruct (insertLeaf (mkLeaf n k k) t) as [[t1 u]|] eqn:E; [|discriminate]. cbn [bind fst] in B.
    replace (n + Z.of_nat (S (length ks))) with (n + 1 + Z.of_nat (length ks)) by lia. apply (IH (n + 1) t1 _ t'); auto.
    + eapply H_insert; eauto; [now apply noZero_byte|]. intros e He. apply noZero_clash; auto.
    + intros e He. apply put_in in He as [->|He]; auto.
Qed.
Definition tree_of (ks : list bytes) : tree := match build 0 ks newTree with Ok t => t | Panic => newTree end.
Lemma tree_hist : forall ks t, forallb noZero ks = true -> build 0 ks newTree = Ok t -> Hist (Z.of_nat (length ks)) t (puts ks).
Proof. intros ks t Z0 B. exact (build_hist ks 0 newTree [] t H_new ltac:(easy) Z0 B). Qed.

Definition manyKeys : list bytes := map (fun i => [98; 98; 1 + Z.of_nat i]) (seq 0 60) ++ [[98; 98]; [98; 98; 7; 7]; [98; 99]; [98; 120]].
Lemma many_hist : Hist 64 (tree_of manyKeys) (puts manyKeys).
Proof. apply (tree_hist manyKeys); vm_compute; reflexivity. Qed.

(** ** C23 *)

(** Inserting never panics, reports whether the key was there, and adds it. *)
Theorem C23_insert_partial : forall n t m k v, Hist n t m -> Forall isByte k -> (forall e, In e m -> ~ clash k (fst e)) ->
  exists t', insertLeaf (mkLeaf n k v) t = Ok (t', held k m) /\ Hist (n + 1) t' (put k v m).
Proof.
  intros n t m k v H Bk Cl. destruct (hist_inv _ _ _ H) as (ls & -> & I). destruct (insert_inv n t ls k v I Bk Cl) as (t' & E & _).
  exists t'. rewrite held_lhas. split; [exact E|]. eapply H_insert; eauto.
Qed.
Example C23_insert_ex : exists t', insertLeaf (mkLeaf 64 [98; 98; 61] [1]) (tree_of manyKeys) = Ok (t', false) /\ size t' = 65 /\
  exists t'', insertLeaf (mkLeaf 65 [98; 98; 61] [2]) t' = Ok (t'', true) /\ size t'' = 65.
Proof. eexists. split; [vm_compute; reflexivity|]. split; [vm_compute; reflexivity|]. eexists. split; vm_compute; reflexivity. Qed.
Print Assumptions C23_insert_partial.

(** Removing returns what was held and takes it out. *)
Theorem C23_remove : forall n t m k, Hist n t m -> Forall isByte k ->
  exists t' l, remove k t = Ok (t', l) /\ option_map lVal l = valueOf k m /\ Hist n t' (drop k m).
Proof.
  intros n t m k H Bk. destruct (hist_inv _ _ _ H) as (ls & -> & I). destruct (remove_inv n t ls k I Bk) as (t' & E & _).
  exists t', (option_map fst (lget k ls)). split; [exact E|]. split; [|eapply H_remove; eauto].
  unfold valueOf. rewrite exact_lget. now destruct (lget k ls) as [[l i]|].
Qed.
Example C23_remove_ex : exists t' l, remove [98; 98; 7] (tree_of manyKeys) = Ok (t', Some l) /\ lVal l = [98; 98; 7] /\ size t' = 63.
Proof. eexists. eexists. split; [vm_compute; reflexivity|]. split; vm_compute; reflexivity. Qed.
Print Assumptions C23_remove.

(** Find Exact returns the value and the position of the key. *)
Theorem C23_find_partial : forall n t m k, Hist n t m -> Forall isByte k -> (k = [] -> length m <> 1%nat) ->
  exists a, find Exact k t = Ok a /\ seen a = wanted Exact k m.
Proof.
  intros n t m k H Bk G. destruct (hist_inv _ _ _ H) as (ls & -> & [Sh _ _]). apply find_exact; auto. now rewrite map_length in G.
Qed.
Example C23_find_ex : exists a, find Exact [98; 98; 7; 7] (tree_of manyKeys) = Ok a /\ seen a = Some (([98; 98; 7; 7], [98; 98; 7; 7]), 8%nat).
Proof. eexists. split; vm_compute; reflexivity. Qed.
Print Assumptions C23_find_partial.

Theorem C23_size : forall n t m, Hist n t m -> size t = Z.of_nat (length m).
Proof. intros n t m H. destruct (hist_inv _ _ _ H) as (ls & -> & [(_ & Sz) _ _]). now rewrite map_length. Qed.
Example C23_size_ex : size (tree_of manyKeys) = 64.
Proof. rewrite (C23_size _ _ _ many_hist). vm_compute. reflexivity. Qed.
Print Assumptions C23_size.

(** The lists of the histories: the keys go up, so each is there once; after an
    insert the key has the value, after a remove it has none, and the other keys
    keep theirs. *)
Definition goesUp (m : list entry) : Prop := StronglySorted (fun a b => ltb (fst a) (fst b) = true) m.

Lemma up_leaf : forall ls, StronglySorted klt ls -> goesUp (map asEntry ls).
Proof.
  induction 1 as [|l ls S IH F]; cbn; constructor; auto. apply Forall_forall. intros e He. apply in_map_iff in He as (x & <- & Hx).
  rewrite Forall_forall in F. apply klt_ltb, F, Hx.
Qed.
Lemma sameb_true : forall a b, sameb a b = true <-> a = b.
Proof. intros a b. unfold sameb. now destruct (list_eq_dec Z.eq_dec a b). Qed.
Lemma valueOf_cons : forall q k v m, valueOf q ((k, v) :: m) = if sameb k q then Some v else valueOf q m.
Proof. intros q k v m. unfold valueOf. cbn. destruct (sameb k q); [reflexivity|]. now destruct (sfirst _ m) as [[e i]|]. Qed.
Lemma valueOf_put : forall q k v m, goesUp m -> valueOf q (put k v m) = if sameb k q then Some v else valueOf q m.
Proof.
  intros q k v m U. induction m as [|(k', v') m IH]; cbn [put].
  - rewrite valueOf_cons. reflexivity.
  - destruct (ltb k k') eqn:L; [now rewrite !valueOf_cons|]. destruct (sameb k k') eqn:E.
    + rewrite !valueOf_cons. apply sameb_true in E. subst k'. now destruct (sameb k q).
    + rewrite !valueOf_cons, IH by now inversion U. destruct (sameb k' q) eqn:Q; [|reflexivity]. apply sameb_true in Q. subst k'. now rewrite E.
Qed.
Lemma valueOf_drop : forall q k m, valueOf q (drop k m) = if sameb k q then None else valueOf q m.
Proof.
  intros q k. induction m as [|(k', v') m IH]; cbn [drop filter fst].
  - now destruct (sameb k q).
  - rewrite valueOf_cons. destruct (sameb k k') eqn:E; cbn [negb].
    + fold (drop k m). rewrite IH. apply sameb_true in E. subst k'. now destruct (sameb k q).
    + rewrite valueOf_cons. fold (drop k m). rewrite IH. destruct (sameb k' q) eqn:Q; [|reflexivity]. apply sameb_true in Q. subst k'. now rewrite E.
Qed.

Theorem C23_histories_are_maps : forall n t m, Hist n t m -> goesUp m /\
  (forall k v q, valueOf q (put k v m) = if sameb k q then Some v else valueOf q m) /\
  (forall k q, valueOf q (drop k m) = if sameb k q then None else valueOf q m).
Proof.
  intros n t m H. destruct (hist_inv _ _ _ H) as (ls & -> & [Sh _ _]).
  assert (U : goesUp (map asEntry ls)) by (apply up_leaf; eapply shape_sorted; eauto).
  split; [exact U|]. split; intros; [now apply valueOf_put|apply valueOf_drop].
Qed.
Example C23_histories_ex : goesUp (puts manyKeys) /\ valueOf [98; 120] (puts manyKeys) = Some [98; 120].
Proof. split; [apply (C23_histories_are_maps _ _ _ many_hist)|vm_compute; reflexivity]. Qed.
Print Assumptions C23_histories_are_maps.

(** Keys without a zero byte never clash: on them nothing is left out. *)
Theorem C23_text_keys : forall a b, (forall x, In x a -> x <> 0) -> (forall x, In x b -> x <> 0) -> ~ clash a b.
Proof.
  intros a b A B (r & [-> | ->]); [apply (B 0)|apply (A 0)]; try reflexivity; apply in_or_app; right; now left.
Qed.
Example C23_text_ex : ~ clash [97; 98] [97; 98; 99].
Proof. apply C23_text_keys; cbn; intros x H; intuition lia. Qed.
Print Assumptions C23_text_keys.

(** With a zero byte where another key ends, the other key is lost although Size counts it. *)
Theorem C23_zero_byte_refuted : exists t1 t2 v1 v2, insertLeaf (mkLeaf 0 [97] v1) newTree = Ok (t1, false) /\ insertLeaf (mkLeaf 1 [97; 0] v2) t1 = Ok (t2, false) /\
  size t2 = 2 /\ find Exact [97] t2 = Ok None.
Proof.
  destruct (insertLeaf (mkLeaf 0 [97] [1]) newTree) as [[t1 u1]|] eqn:E1; [|discriminate]. vm_compute in E1. injection E1 as <- <-.
  eexists. eexists. exists [1], [2]. split; [vm_compute; reflexivity|]. split; [vm_compute; reflexivity|]. split; vm_compute; reflexivity.
Qed.
Print Assumptions C23_zero_byte_refuted.

(** ... or the insert panics. *)
Theorem C23_zero_byte_panic_refuted : exists t, build 0 [[97; 0; 98]; [97; 0; 99]; [97; 100]] newTree = Ok t /\ insertLeaf (mkLeaf 3 [97] []) t = Panic.
Proof. eexists. split; vm_compute; reflexivity. Qed.
Print Assumptions C23_zero_byte_panic_refuted.

(** Looking for the empty key in a tree of one key finds that key. *)
Theorem C23_empty_key_refuted : exists t a, Hist 1 t (puts [[97]]) /\ find Exact [] t = Ok (Some a) /\ lKey (fst a) = [97] /\ wanted Exact [] (puts [[97]]) = None.
Proof. exists (tree_of [[97]]). eexists. split; [apply (tree_hist [[97]]); vm_compute; reflexivity|]. split; [vm_compute; reflexivity|]. split; vm_compute; reflexivity. Qed.
Print Assumptions C23_empty_key_refuted.

(** Inserting the same leaf again (InsertLeaf) counts it twice. *)
Theorem C23_same_leaf_refuted : exists lf t1 t2, insertLeaf lf newTree = Ok (t1, false) /\ insertLeaf lf t1 = Ok (t2, false) /\ size t2 = 2 /\ exists b, root t2 = Some (BLeaf b lf).
Proof. exists (mkLeaf 0 [97] []). eexists. eexists. split; [vm_compute; reflexivity|]. split; [vm_compute; reflexivity|]. split; [vm_compute; reflexivity|]. eexists. vm_compute. reflexivity. Qed.
Print Assumptions C23_same_leaf_refuted.

(** ** C24 *)
Theorem C24_search_partial : forall n t m s q, Hist n t m -> Forall isByte q -> q <> [] -> s <> Exact ->
  (s = GTE \/ s = GT -> ~ belowAll q m) -> (s = GT \/ s = LT -> forall v, m <> [(q, v)]) ->
  exists a, find s q t = Ok a /\ seen a = wanted s q m.
Proof.
  intros n t m s q H Bq Nq Ns G1 G2. destruct (hist_inv _ _ _ H) as (ls & -> & [Sh _ _]). apply find_ordered; auto.
  intros D l -> E. apply (G2 D (lVal l)). cbn. unfold asEntry. now rewrite E.
Qed.
Example C24_search_ex :
  (exists a, find GTE [98; 98; 7; 5] (tree_of manyKeys) = Ok a /\ seen a = Some (([98; 98; 7; 7], [98; 98; 7; 7]), 8%nat)) /\
  (exists a, find LT [98; 98; 7; 7] (tree_of manyKeys) = Ok a /\ seen a = Some (([98; 98; 7], [98; 98; 7]), 7%nat)) /\
  ~ belowAll [98; 98; 7; 5] (puts manyKeys).
Proof.
  split; [eexists; split; vm_compute; reflexivity|]. split; [eexists; split; vm_compute; reflexivity|].
  intros (_ & p & c & c' & r & E & L & A). destruct p as [|x p].
  - destruct (A ([98; 98], [98; 98])) as (s & Es); [vm_compute; auto|]. cbn in *. injection E as <- _. injection Es as <- _. lia.
  - destruct p as [|x2 p].
    + destruct (A ([98; 98], [98; 98])) as (s & Es); [vm_compute; auto|]. cbn in *. injection E as <- <- _. injection Es as <- _. lia.
    + destruct (A ([98; 99], [98; 99])) as (s & Es); [vm_compute; intuition|]. cbn in *. injection E as <- <- _. injection Es as E2 _. lia.
Qed.
Print Assumptions C24_search_partial.

(** By convention a search for the empty key at or after gives the first, at or before the last. *)
Theorem C24_search_empty_key : forall n t m s, Hist n t m -> s <> Exact ->
  exists a, find s [] t = Ok a /\ seen a = match s with GTE | GT => sfirst (fun _ => true) m | _ => slast (fun _ => true) m end.
Proof.
  intros n t m s H Ns. destruct (hist_inv _ _ _ H) as (ls & -> & [Sh _ _]). destruct (find_empty s t ls Sh) as (a & E & Sa); [easy|].
  exists a. split; [exact E|]. rewrite Sa. now destruct s.
Qed.
Example C24_empty_ex : exists a, find LT [] (tree_of manyKeys) = Ok a /\ seen a = Some (([98; 120], [98; 120]), 63%nat).
Proof. eexists. split; vm_compute; reflexivity. Qed.
Print Assumptions C24_search_empty_key.

(** The leaf at an index, whatever calls came before (At keeps an iterator). *)
Theorem C24_at : forall n t m i, Hist n t m ->
  exists t' l, AtGives i t t' l /\ option_map asEntry l = (if i <? 0 then None else nth_error m (Z.to_nat i)) /\ Hist n t' m.
Proof.
  intros n t m i H. destruct (hist_inv _ _ _ H) as (ls & -> & I). destruct (at_inv n t ls i I) as (t' & A & I' & _).
  exists t'. eexists. split; [exact A|]. split; [|eapply H_at; eauto]. destruct (i <? 0); [reflexivity|]. now rewrite nth_error_map.
Qed.
Example C24_at_ex : exists t1 t2 l1 l2, AtGives 8 (tree_of manyKeys) t1 (Some l1) /\ AtGives 9 t1 t2 (Some l2) /\ lKey l1 = [98; 98; 7; 7] /\ lKey l2 = [98; 98; 8].
Proof.
  destruct (C24_at _ _ _ 8 many_hist) as (t1 & l1 & A1 & E1 & H1). destruct (C24_at _ _ _ 9 H1) as (t2 & l2 & A2 & E2 & _).
  replace (if 8 <? 0 then None else nth_error (puts manyKeys) (Z.to_nat 8)) with (Some ([98; 98; 7; 7], [98; 98; 7; 7])) in E1 by (vm_compute; reflexivity).
  replace (if 9 <? 0 then None else nth_error (puts manyKeys) (Z.to_nat 9)) with (Some ([98; 98; 8], [98; 98; 8])) in E2 by (vm_compute; reflexivity).
  destruct l1 as [l1|]; [|discriminate]. destruct l2 as [l2|]; [|discriminate]. exists t1, t2, l1, l2.
  split; [exact A1|]. split; [exact A2|]. cbn [option_map] in E1, E2. unfold asEntry in E1, E2. split; congruence.
Qed.
Print Assumptions C24_at.

Theorem C24_atfar : forall n t m i, Hist n t m -> option_map asEntry (atfar i t) = (if i <? 0 then None else nth_error m (Z.to_nat i)).
Proof.
  intros n t m i H. destruct (hist_inv _ _ _ H) as (ls & -> & [(R & _) _ _]). unfold atfar. destruct (root t) as [b|].
  - rewrite (at_spec _ _ _ R). destruct (i <? 0); [reflexivity|]. now rewrite nth_error_map.
  - subst. cbn. destruct (i <? 0); [reflexivity|]. now destruct (Z.to_nat i).
Qed.
Example C24_atfar_ex : option_map lKey (atfar 63 (tree_of manyKeys)) = Some [98; 120] /\ atfar 64 (tree_of manyKeys) = None.
Proof. split; vm_compute; reflexivity. Qed.
Print Assumptions C24_atfar.

(** A key below the beginning that all keys share: nothing is found at or after it. *)
Theorem C24_below_all_refuted : exists t, Hist 2 t (puts [[98; 98]; [98; 99]]) /\ find GTE [97] t = Ok None /\ find GT [97] t = Ok None /\
  wanted GTE [97] (puts [[98; 98]; [98; 99]]) = Some (([98; 98], [98; 98]), 0%nat).
Proof. exists (tree_of [[98; 98]; [98; 99]]). split; [apply (tree_hist [[98; 98]; [98; 99]]); vm_compute; reflexivity|]. split; [vm_compute; reflexivity|]. split; vm_compute; reflexivity. Qed.
Print Assumptions C24_below_all_refuted.

(** In a tree of one key the strict searches find the key itself. *)
Theorem C24_single_refuted : exists t a, Hist 1 t (puts [[97]]) /\ find GT [97] t = Ok (Some a) /\ find LT [97] t = Ok (Some a) /\ lKey (fst a) = [97] /\
  wanted GT [97] (puts [[97]]) = None /\ wanted LT [97] (puts [[97]]) = None.
Proof.
  exists (tree_of [[97]]). eexists. split; [apply (tree_hist [[97]]); vm_compute; reflexivity|]. split; [vm_compute; reflexivity|]. split; [vm_compute; reflexivity|].
  split; [vm_compute; reflexivity|]. split; vm_compute; reflexivity.
Qed.
Print Assumptions C24_single_refuted.

(** ** C49 *)
Theorem C49_ascend_partial : forall n t m start endx, Hist n t m -> Forall isByte start -> Forall isByte endx -> ~ belowAll start m ->
  exists it, iter start endx t = Ok it /\ Drained t it (upRange start endx m) /\ (forall out, Drained t it out -> out = upRange start endx m).
Proof.
  intros n t m start endx H Bs Be G. destruct (hist_inv _ _ _ H) as (ls & -> & [Sh _ _]). destruct (iter_drains t ls start endx Sh Bs Be G) as (it & out & E & D & R).
  exists it. apply drains_drained in D. rewrite R in D. split; [exact E|]. split; [exact D|]. intros out' D'. eapply drained_det; eauto.
Qed.
Lemma in_not_below : forall q v m, In (q, v) m -> ~ belowAll q m.
Proof. intros q v m H (_ & p & c & c' & r & E & L & A). destruct (A _ H) as (s & Es). cbn in Es. rewrite Es in E. apply app_inv_head in E. injection E as -> _. lia. Qed.
Example C49_ascend_ex : exists it, iter [98; 98; 60] [98; 110] (tree_of manyKeys) = Ok it /\
  Drained (tree_of manyKeys) it [(([98; 98; 60], [98; 98; 60]), 61); (([98; 99], [98; 99]), 62)].
Proof.
  destruct (C49_ascend_partial _ _ _ [98; 98; 60] [98; 110] many_hist) as (it & E & D & _).
  - repeat constructor; lia.
  - repeat constructor; lia.
  - apply (in_not_below _ [98; 98; 60]). vm_compute. intuition.
  - exists it. split; [exact E|]. replace (upRange _ _ _) with [(([98; 98; 60], [98; 98; 60]), 61); (([98; 99], [98; 99]), 62)] in D by (vm_compute; reflexivity). exact D.
Qed.
Print Assumptions C49_ascend_partial.

Theorem C49_descend_partial : forall n t m start endx, Hist n t m -> Forall isByte start -> Forall isByte endx -> ~ belowAll endx m ->
  exists it, revIter endx start t = Ok it /\ Drained t it (downRange endx start m) /\ (forall out, Drained t it out -> out = downRange endx start m).
Proof.
  intros n t m start endx H Bs Be G. destruct (hist_inv _ _ _ H) as (ls & -> & [Sh _ _]). destruct (revIter_drains t ls start endx Sh Bs Be G) as (it & out & E & D & R).
  exists it. apply drains_drained in D. rewrite R in D. split; [exact E|]. split; [exact D|]. intros out' D'. eapply drained_det; eauto.
Qed.
Example C49_descend_ex : exists it, revIter [98; 98; 60] [] (tree_of manyKeys) = Ok it /\
  Drained (tree_of manyKeys) it [(([98; 120], [98; 120]), 63); (([98; 99], [98; 99]), 62)].
Proof.
  destruct (C49_descend_partial _ _ _ [] [98; 98; 60] many_hist) as (it & E & D & _).
  - repeat constructor; lia.
  - repeat constructor; lia.
  - apply (in_not_below _ [98; 98; 60]). vm_compute. intuition.
  - exists it. split; [exact E|]. replace (downRange _ _ _) with [(([98; 120], [98; 120]), 63); (([98; 99], [98; 99]), 62)] in D by (vm_compute; reflexivity). exact D.
Qed.
Print Assumptions C49_descend_partial.

(** An iterator whose tree was changed since the last call goes on with the next
    key after the last one, if it is in range, and ends otherwise. *)
Theorem C49_after_change_partial : forall n t m it, Hist n t m -> itClosed it = false -> itVersion it <> version t ->
  let c := itCursor it in let s := if itReverse it then LT else GT in
  Forall isByte c -> c <> [] -> (itReverse it = false -> ~ belowAll c m) -> (itReverse it = true -> forall v, ~ In ([], v) m) -> (forall v, m <> [(c, v)]) ->
  exists it' ok, NextGives t it it' ok /\
  match wanted s c m with
  | Some (e, i) =>
      if sameb (itTerminate it) [] || (if itReverse it then ltb (itTerminate it) (fst e) else ltb (fst e) (itTerminate it))
      then ok = true /\ option_map asEntry (itLeaf it') = Some e /\ itIdx it' = Z.of_nat i
      else ok = false /\ itClosed it' = true
  | None => ok = false /\ itClosed it' = true
  end.
Proof.
  intros n t m it H C V c s Bc Nc G1 G0 G2. destruct (hist_inv _ _ _ H) as (ls & -> & [Sh _ _]). pose proof (shape_sorted _ _ Sh) as So.
  destruct (find_ordered s c t ls Sh Bc Nc) as (a & Ea & Sa).
  { unfold s. now destruct (itReverse it). }
  { unfold s. destruct (itReverse it); [now intros [|]|auto]. }
  { intros _ l -> El. apply (G2 (lVal l)). cbn. unfold asEntry. now rewrite El. }
  rewrite <- Sa. assert (U : forall fuel, nextIter fuel t it = (do a <- Ok a ; match a with None => Ok (Some (setClosed it, false)) | Some (l, idx) =>
        nextStep fuel t (mkIter (version t) [] false (lKey l) (itTerminate it) (itReverse it) (Z.of_nat idx) (Some l)) end)).
  { intros fuel. unfold nextIter. rewrite C. destruct (Z.eqb_spec (itVersion it) (version t)); [easy|]. cbn [negb]. fold s c. now rewrite Ea. }
  destruct a as [[l i]|]; cbn [bind seen option_map fst snd] in *.
  2:{ exists (setClosed it), false. split; [|auto]. exists 0%nat. intros fuel _. apply U. }
  set (it1 := mkIter (version t) [] false (lKey l) (itTerminate it) (itReverse it) (if itReverse it then Z.of_nat i + 1 else Z.of_nat i - 1) (Some l)).
  assert (Bu : bump it1 = Z.of_nat i) by (unfold bump, it1; cbn; destruct (itReverse it); lia).
  assert (U1 : forall fuel, nextIter fuel t it = nextIter fuel t it1).
  { intros fuel. rewrite U. unfold nextIter at 1. unfold it1 at 1 2 3. cbn [itClosed itVersion]. rewrite Z.eqb_refl. cbn [negb]. fold (bump it1). rewrite Bu. reflexivity. }
  assert (Hl : exists l0, In l0 ls /\ asEntry l0 = asEntry l).
  { unfold s in Sa. assert (X : forall p m e i, sfirst p m = Some (e, i) -> In e m).
    { clear. intros p. induction m as [|x m IH]; intros e i E; cbn in E; [discriminate|]. destruct (p (fst x)); [injection E as <- _; now left|]. destruct (sfirst p m) as [[y j]|]; [|discriminate]. injection E as <- _. right. eauto. }
    assert (Y : forall p m e i, slast p m = Some (e, i) -> In e m).
    { clear. intros p. induction m as [|x m IH]; intros e i E; cbn in E; [discriminate|]. destruct (slast p m) as [[y j]|]; [injection E as <- _; right; eauto|]. destruct (p (fst x)); [|discriminate]. injection E as <- _. now left. }
    assert (Z0 : In (asEntry l) (map asEntry ls)) by (destruct (itReverse it); cbn [wanted] in Sa; symmetry in Sa; eauto). apply in_map_iff in Z0 as (l0 & E0 & I0). eauto. }
  destruct Hl as (l0 & Hl0 & El0).
  assert (Kl : lKey l0 = lKey l) by (unfold asEntry in El0; congruence).
  pose proof Sh as (R & _). destruct (root t) as [b|] eqn:Rt; [|subst; easy].
  assert (L : Left t it1 (turn (itReverse it) ls)) by (apply new_left_some with (b := b); auto).
  pose proof (sorted_turn (itReverse it) _ So) as So'.
  assert (Hl1 : In l0 (turn (itReverse it) ls)) by (unfold turn; destruct (itReverse it); [now apply in_rev in Hl0|exact Hl0]).
  apply in_split in Hl1 as (l1 & l2 & E12). rewrite E12 in *.
  assert (Pre : Forall (fun x => inRange it1 (lKey x) = false) l1).
  { apply Forall_forall. intros x Hx. rewrite inRange_ok. apply andb_false_iff. left. unfold startOk. cbn [itReverse itCursor it1].
    assert (A : along (itReverse it) x l0).
    { clear -So' Hx. induction l1 as [|y l1 IH]; [easy|]. cbn in So'. apply StronglySorted_inv in So' as (S1 & F). destruct Hx as [->|Hx]; [|auto]. rewrite Forall_forall in F. apply F. apply in_or_app. right. now left. }
    destruct (itReverse it); cbn in A; apply klt_ltb in A; rewrite Kl in A; rewrite A; [|reflexivity]. rewrite same_nil. destruct (lKey l) as [|z zs] eqn:Kz; [|reflexivity].
    exfalso. apply (G0 eq_refl (lVal l0)). apply in_map_iff. exists l0. unfold asEntry. rewrite Kl. auto. }
  destruct (next_left t it1 _ L) as (it' & ok & N & D). exists it', ok. split; [destruct N as (N & HN); exists N; intros fuel Lf; rewrite U1; auto|].
  cbn [asEntry fst]. destruct (sameb (itTerminate it) [] || (if itReverse it then ltb (itTerminate it) (lKey l) else ltb (lKey l) (itTerminate it))) eqn:En.
  - assert (Il : inRange it1 (lKey l0) = true).
    { rewrite inRange_ok, Kl. apply andb_true_iff. split; [|exact En]. unfold startOk. cbn [itReverse itCursor it1]. rewrite ltb_bcmp, bcmp_refl. destruct (itReverse it); [apply orb_true_r|reflexivity]. }
    destruct D as [(-> & C' & F)|(-> & a & x & c' & E & F & Ix & El & Ei & _)].
    + exfalso. rewrite Forall_forall in F. rewrite (F l0) in Il; [discriminate|]. apply in_or_app. right. now left.
    + destruct (first_split (fun x => inRange it1 (lKey x)) l1 l0 l2 a x c' E Pre Il F Ix) as (-> & -> & ->). split; [reflexivity|]. rewrite El. cbn [option_map]. split; [now rewrite El0|]. now rewrite Ei.
  - destruct D as [(-> & C' & F)|(-> & a & x & c' & E & F & Ix & El & Ei & _)]; [auto|]. exfalso.
    assert (Hx : In x (l1 ++ l0 :: l2)) by (rewrite E; apply in_or_app; right; now left). apply in_app_or in Hx as [Hx|Hx].
    { rewrite Forall_forall in Pre. rewrite (Pre _ Hx) in Ix. discriminate. }
    assert (Eo : endOk it1 (lKey l0) = false) by (rewrite Kl; exact En).
    rewrite inRange_ok in Ix. apply andb_true_iff in Ix as (_ & Ix). destruct Hx as [<-|Hx]; [congruence|].
    assert (A : along (itReverse it1) l0 x).
    { apply sorted_part in So'. apply StronglySorted_inv in So' as (_ & Fl). rewrite Forall_forall in Fl. now apply Fl. }
    pose proof (end_down it1 l0 x A ltac:(now rewrite Eo)) as Z0. rewrite Ix in Z0. discriminate.
Qed.
Ltac steps := exists 40%nat; let f := fresh "f" in intros f ?; replace f with (40 + (f - 40))%nat by lia; generalize (f - 40)%nat; clear; intros f; vm_compute; reflexivity.

Example C49_after_change_ex : exists t2, remove [98] (tree_of [[97]; [98]; [99]; [100]]) = Ok (t2, Some (mkLeaf 1 [98] [98])) /\
  exists it1 it2, NextGives (tree_of [[97]; [98]; [99]; [100]]) (mkIter 4 [] false [97] [] false (-1) None) it1 true /\ itCursor it1 = [97] /\ itVersion it1 <> version t2 /\
  NextGives t2 it1 it2 true /\ option_map lKey (itLeaf it2) = Some [99] /\ itIdx it2 = 1.
Proof.
  eexists. split; [vm_compute; reflexivity|]. eexists. eexists. split; [steps|]. split; [vm_compute; reflexivity|]. split; [vm_compute; discriminate|]. split; [steps|]. split; vm_compute; reflexivity.
Qed.
Print Assumptions C49_after_change_partial.

(** A start below the beginning that all keys share: nothing is visited. *)
Theorem C49_below_all_refuted : exists t it, Hist 2 t (puts [[98; 98]; [98; 99]]) /\ iter [97] [] t = Ok it /\ Drained t it [] /\
  upRange [97] [] (puts [[98; 98]; [98; 99]]) = [(([98; 98], [98; 98]), 0); (([98; 99], [98; 99]), 1)].
Proof.
  exists (tree_of [[98; 98]; [98; 99]]). eexists. split; [apply (tree_hist [[98; 98]; [98; 99]]); vm_compute; reflexivity|]. split; [vm_compute; reflexivity|].
  split; [|vm_compute; reflexivity]. eapply Drained_end. steps.
Qed.
Print Assumptions C49_below_all_refuted.

(** When all keys but the one just visited are removed, it is visited again. *)
Theorem C49_visited_twice_refuted : exists t t2 it it1 it2 l, Hist 2 t (puts [[97]; [98]]) /\ iter [] [] t = Ok it /\ NextGives t it it1 true /\
  remove [98] t = Ok (t2, Some l) /\ NextGives t2 it1 it2 true /\ option_map lKey (itLeaf it1) = Some [97] /\ option_map lKey (itLeaf it2) = Some [97].
Proof.
  exists (tree_of [[97]; [98]]). eexists. eexists. eexists. eexists. eexists. split; [apply (tree_hist [[97]; [98]]); vm_compute; reflexivity|]. split; [vm_compute; reflexivity|].
  split; [steps|]. split; [vm_compute; reflexivity|]. split; [steps|]. split; vm_compute; reflexivity.
Qed.
Print Assumptions C49_visited_twice_refuted.

(** A change before the first Next makes the iterator skip its start key. *)
Theorem C49_start_skipped_refuted : exists t t2 it it1, Hist 2 t (puts [[97]; [98]]) /\ iter [97] [] t = Ok it /\
  insertLeaf (mkLeaf 2 [99] [99]) t = Ok (t2, false) /\ NextGives t2 it it1 true /\ option_map lKey (itLeaf it1) = Some [98].
Proof.
  exists (tree_of [[97]; [98]]). eexists. eexists. eexists. split; [apply (tree_hist [[97]; [98]]); vm_compute; reflexivity|]. split; [vm_compute; reflexivity|].
  split; [vm_compute; reflexivity|]. split; [steps|]. vm_compute. reflexivity.
Qed.
Print Assumptions C49_start_skipped_refuted.

(** Going down after a change, when the next key is the empty key: the iterator
    goes back to the largest key. *)
Theorem C49_descend_restarts_refuted : exists t t2 it it1 it2 it3, Hist 3 t (puts [[]; [97]; [98]]) /\ revIter [] [] t = Ok it /\
  NextGives t it it1 true /\ NextGives t it1 it2 true /\ option_map lKey (itLeaf it2) = Some [97] /\
  insertLeaf (mkLeaf 3 [99] [99]) t = Ok (t2, false) /\ NextGives t2 it2 it3 true /\ option_map lKey (itLeaf it3) = Some [99].
Proof.
  exists (tree_of [[]; [97]; [98]]). eexists. eexists. eexists. eexists. eexists. split; [apply (tree_hist [[]; [97]; [98]]); vm_compute; reflexivity|]. split; [vm_compute; reflexivity|].
  split; [steps|]. split; [steps|]. split; [vm_compute; reflexivity|]. split; [vm_compute; reflexivity|]. split; [steps|]. vm_compute. reflexivity.
Qed.
Print Assumptions C49_descend_restarts_refuted.
