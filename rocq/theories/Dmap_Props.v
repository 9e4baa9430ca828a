(** Property theorems for dmap (/repo/dmap.go, /repo/tube/dmap.go). *)
From Coq Require Import List NArith Arith Lia Bool Sorted.
From Verif Require Import Base Omap_Model Omap_Spec Omap_Proofs Omap_Proofs2 Omap_Props Dmap_Model Dmap_Spec Dmap_Proofs.
Import ListNotations.

(** After any history of calls (iterators passed to deleteWithIter being live,
    or of an id that is absent) a dmap is the sorted finite map of that history:
    no call panics ("out of sync with tree" included), and Len, get2, the
    results of set, delkey and deleteWithIter, cached() and a range that stops
    anywhere all agree with it. delkey returns the iterator of the next larger
    id, or the end iterator when the key was not there. *)
Theorem C14_dmap_is_sorted_map : forall (Id Obj V : Type) (cmp : Id -> Id -> comparison) (id : Obj -> Id), ord_ok cmp ->
  forall calls : list (dop Obj V), goodIters cmp id (mkAbs [] (fun _ => None)) calls ->
  let a := absOf cmp id calls in
  exists d l,
    drun cmp id calls = Ok d /\
    enumerates cmp (binding a) l /\
    dLen d = List.length l /\
    (forall k, dget2 cmp id d k = Ok (option_map snd (binding a (id k)))) /\
    (forall k v, exists d', dset cmp id d k v = Ok (negb (isSome (binding a (id k))), d')) /\
    (forall k, exists next d', ddelkey cmp id d k = Ok (isSome (binding a (id k)), next, d') /\
       option_map fst next = if isSome (binding a (id k))
                             then hd_error (filter (fun i => match cmp i (id k) with Gt => true | _ => false end) (map fst l))
                             else None) /\
    readPtrs (d_om d) (fst (dcached d)) = map (fun kv => (fst kv, Some (snd kv))) l /\
    (forall n, exists u d', dall (dlookBody n) (dLen d) 0 d = Ok (Some (u, d', firstn (Nat.max 1 n) (map snd l)))).
Proof.
  intros Id Obj V cmp id OK calls G a.
  assert (W0 : winv cmp (d_om (@newDmap Id Obj V))).
  { constructor; simpl; [constructor|constructor|constructor|]. intros _. left. exists []. auto. }
  destruct (drun_spec cmp OK id calls _ _ (dinv_new cmp id) W0 G) as (d & R & D & W).
  change (fold_left (absStep cmp id) calls (mkAbs [] (fun _ => None))) with a in D. clearbody a.
  destruct (pairs_exist (o_heap (d_om d)) (o_tree (d_om d)) (wi_heap cmp _ W)) as [l PR].
  assert (LB : forall i, look cmp (d_om d) i = binding a i).
  { intros i. rewrite entry_look. unfold binding. rewrite (di_map cmp id d a D). auto. }
  assert (SB : forall i, isSome (binding a i) = match a_map a i with Some _ => true | None => false end).
  { intros i. unfold binding. destruct (a_map a i) as [[[? ?] ?]|]; auto. }
  exists d, l. split; auto. split.
  { destruct (pairs_enum cmp OK _ l W PR) as [A B]. split; auto. intros k v. rewrite B, LB. tauto. }
  split; [rewrite (dLen_len cmp id d a D); apply (pairs_len _ _ _ PR)|].
  split.
  { intros k. unfold dget2. rewrite (idx_entry cmp OK id d a _ D). unfold binding.
    destruct (a_map a (id k)) as [[[p k0] v0]|] eqn:E; auto. rewrite (di_map cmp id d a D) in E.
    apply entry_some in E; auto; [|apply D]. destruct E as [_ E]. rewrite E. auto. }
  split.
  { intros k v. rewrite SB. destruct (a_map a (id k)) as [[[p k0] v0]|] eqn:E.
    - destruct (dset_hit cmp OK id d a k v p k0 v0 D E) as (d' & A & _). eauto.
    - destruct (dset_miss cmp OK id d a k v D E) as (d' & A & _). eauto. }
  split.
  { intros k. destruct (ddelkey_spec cmp OK id d a k D) as (next & d' & A & _ & B & _). rewrite SB, A. exists next, d'. split; auto.
    rewrite B. destruct (a_map a (id k)) as [[[? ?] ?]|]; auto. rewrite (pairs_keys _ _ _ PR).
    clear. induction (o_tree (d_om d)) as [|[i p] t IH]; simpl; auto. destruct (cmp i (id k)); simpl; auto. }
  split.
  { destruct (cached_spec cmp (d_om d) W) as (C & _). unfold dcached. destruct (cached (d_om d)) as [c s']. simpl in *. subst c.
    apply (pairs_rd _ _ _ PR). }
  intros n. destruct (dall_look cmp id n d a D W) as (u & d' & l' & A & P' & _).
  rewrite (dLen_len cmp id d a D). exists u, d'. rewrite A. do 5 f_equal.
  assert (E1 := pairs_enum cmp OK _ l W PR). assert (E2 := pairs_enum cmp OK _ l' W P').
  f_equal. apply (enum_unique cmp OK); try apply E1; try apply E2. intros [k v]. rewrite (proj2 E1), (proj2 E2). tauto.
Qed.
Print Assumptions C14_dmap_is_sorted_map.

(** Key objects carrying an id and a tag the map must ignore. *)
Definition exObj := (N * bool)%type.
Definition exD : list (dop exObj N) :=
  [DSet (5, true) 50; DSet (2, true) 20; DCached; DSet (9, true) 90; DPoke (2, false) 21; DAll 2; DDel (5, false);
   DSet (5, false) 51; DDelIter 2; DSet (5, true) 52; DSet (7, true) 70; DDelIter 2; DAll 9]%N.

Example C14_nonvacuous : ord_ok N.compare /\ goodIters N.compare fst (mkAbs [] (fun _ => None)) exD /\
  map (binding (absOf N.compare fst exD)) [2; 5; 7; 9]%N = [Some ((2, true), 21); Some ((5, false), 52); Some ((7, true), 70); None]%N /\
  exists d u d', drun N.compare fst exD = Ok d /\ dLen d = 3%nat /\
    dall (dlookBody 9) 3 0 d = Ok (Some (u, d', [((2, true), 21); ((5, false), 52); ((7, true), 70)]%N)).
Proof.
  split; [apply Ncompare_ok|]. split; [repeat split|]. split; [vm_compute; reflexivity|].
  do 3 eexists. split; [vm_compute; reflexivity|]. split; vm_compute; reflexivity.
Qed.

(** Ranging with bodies that set or delete the current key, any number of
    times, cold or warm: the pairs handed out are an initial part of the pairs
    the map held, in order, each with the value the map held; afterwards the map
    is what the bodies made of it. A body that always goes on sees all of them,
    or - on a warm order cache only - all but the last, having deleted the one
    before. *)
Theorem C14_range_with_deletes_partial : forall (Id Obj V : Type) (cmp : Id -> Id -> comparison) (id : Obj -> Id), ord_ok cmp ->
  forall (calls : list (dop Obj V)) dec, goodIters cmp id (mkAbs [] (fun _ => None)) calls ->
  let a := absOf cmp id calls in
  exists d l j n d', drun cmp id calls = Ok d /\ enumerates cmp (binding a) l /\
    let seen := firstn j (map snd l) in
    dall (dscript cmp id dec) (dLen d) 0 d = Ok (Some (n, d', seen)) /\
    (forall k, dget2 cmp id d' k = Ok (option_map snd (binding (absBodies cmp id dec 0 seen a) (id k)))) /\
    ((forall i k v, snd (dec i k v) = true) ->
       seen = map snd l \/
       cacheHit (d_om d) = true /\ exists pre k v kv2, map snd l = pre ++ [(k, v)] ++ [kv2] /\ seen = pre ++ [(k, v)] /\
         dget2 cmp id d' k = Ok None).
Proof.
  intros Id Obj V cmp id OK calls dec G a.
  assert (W0 : winv cmp (d_om (@newDmap Id Obj V))).
  { constructor; simpl; [constructor|constructor|constructor|]. intros _. left. exists []. auto. }
  destruct (drun_spec cmp OK id calls _ _ (dinv_new cmp id) W0 G) as (d & R & D & W).
  change (fold_left (absStep cmp id) calls (mkAbs [] (fun _ => None))) with a in D. clearbody a.
  destruct (pairs_exist (o_heap (d_om d)) (o_tree (d_om d)) (wi_heap cmp _ W)) as [l PR].
  destruct (dall_script cmp OK id dec d a l D W PR) as (n & d' & j & A & D' & W' & GO).
  exists d, l, j, n, d'. split; auto. split.
  { destruct (pairs_enum cmp OK _ l W PR) as [X Y]. split; auto. intros k v. rewrite Y, entry_look. unfold binding.
    rewrite (di_map cmp id d a D). tauto. }
  assert (GE : forall k, dget2 cmp id d' k = Ok (option_map snd (binding (absBodies cmp id dec 0 (firstn j (map snd l)) a) (id k)))).
  { intros k. unfold dget2. rewrite (idx_entry cmp OK id d' _ _ D'). unfold binding.
    destruct (a_map (absBodies cmp id dec 0 (firstn j (map snd l)) a) (id k)) as [[[p k0] v0]|] eqn:E; auto.
    rewrite (di_map cmp id d' _ D') in E. apply entry_some in E; auto; [|apply D']. destruct E as [_ E]. rewrite E. auto. }
  split; auto. split; auto. intros ON. destruct (GO ON) as [X|(CH & pre & k & v & kv2 & X & Y & Z)]; auto.
  right. split; auto. exists pre, k, v, kv2. split; auto. split; auto. rewrite GE, Y. unfold binding. rewrite Z. auto.
Qed.
Print Assumptions C14_range_with_deletes_partial.

(** The warm skip is real: a live last key is not visited. *)
Theorem C14_warm_delete_skips_last_refuted : exists d d',
  drun N.compare fst [DSet (1, true) 10; DSet (2, true) 20; DSet (3, true) 30; DCached]%N = Ok d /\
  dall (dscript N.compare fst (fun _ k _ => (if N.eqb (fst k) 2 then [ADel] else [], true))) (dLen d) 0 d =
    Ok (Some (2%nat, d', [((1, true), 10); ((2, true), 20)]%N)) /\
  dget2 N.compare fst d' (3%N, true) = Ok (Some 30%N).
Proof. do 2 eexists. split; [vm_compute; reflexivity|]. split; vm_compute; reflexivity. Qed.
Print Assumptions C14_warm_delete_skips_last_refuted.

(** deleteWithIter with the iterator of a deleted node whose id was added again:
    the presence test passes (by id) but the deletion acts on the stale node,
    which is not in the tree. For every history and every key absent after it. *)
Theorem C14_stale_iterator_refuted : forall (Id Obj V : Type) (cmp : Id -> Id -> comparison) (id : Obj -> Id), ord_ok cmp ->
  forall (calls : list (dop Obj V)) k v v', goodIters cmp id (mkAbs [] (fun _ => None)) calls ->
  binding (absOf cmp id calls) (id k) = None ->
  exists d, drun cmp id (calls ++ [DSet k v; DDel k; DSet k v']) = Ok d /\
    dget2 cmp id d k = Ok (Some v') /\
    ddeleteWithIter cmp d (nthIter id d (List.length (a_objs (absOf cmp id calls)))) = Panic.
Proof.
  intros Id Obj V cmp id OK calls k v v' G N.
  assert (W0 : winv cmp (d_om (@newDmap Id Obj V))).
  { constructor; simpl; [constructor|constructor|constructor|]. intros _. left. exists []. auto. }
  destruct (drun_spec cmp OK id calls _ _ (dinv_new cmp id) W0 G) as (d & R & D & W).
  change (fold_left (absStep cmp id) calls (mkAbs [] (fun _ => None))) with (absOf cmp id calls) in D.
  set (a := absOf cmp id calls) in *. clearbody a.
  assert (E : a_map a (id k) = None) by (unfold binding in N; destruct (a_map a (id k)) as [[[? ?] ?]|]; [discriminate|auto]).
  destruct (drun_spec cmp OK id [DSet k v; DDel k; DSet k v'] d a D W) as (d3 & R3 & D3 & W3); [simpl; auto|].
  assert (RR : drun cmp id (calls ++ [DSet k v; DDel k; DSet k v']) = Ok d3).
  { unfold drun in *. rewrite run_res_app, R. exact R3. }
  set (a3 := fold_left (absStep cmp id) [DSet k v; DDel k; DSet k v'] a) in *.
  assert (M3 : a_map a3 (id k) = Some (S (List.length (a_objs a)), k, v') /\ a_objs a3 = a_objs a ++ [k; k]).
  { assert (UN : forall A (m : Id -> option A) x, upd cmp m (id k) x (id k) = x) by (intros; unfold upd; rewrite (same_refl cmp OK); auto).
    unfold a3. cbn [fold_left absStep]. rewrite E. cbn [a_map a_objs]. rewrite UN. cbn [a_map a_objs]. rewrite UN.
    split; [rewrite app_length, Nat.add_1_r; auto|rewrite <- app_assoc; auto]. }
  destruct M3 as [M3 O3]. exists d3. split; auto. split.
  { unfold dget2. rewrite (idx_entry cmp OK id d3 a3 _ D3), M3. pose proof M3 as M3'. rewrite (di_map cmp id d3 a3 D3) in M3'.
    apply entry_some in M3'; auto; [|apply D3]. destruct M3' as [_ X]. rewrite X. auto. }
  assert (NI : nth_error (o_heap (d_om d3)) (List.length (a_objs a)) <> None /\
               forall kv, nth_error (o_heap (d_om d3)) (List.length (a_objs a)) = Some kv -> fst kv = k).
  { pose proof (di_objs cmp id d3 a3 D3) as O. assert (X : nth_error (a_objs a3) (List.length (a_objs a)) = Some k).
    { rewrite O3, nth_error_app2, Nat.sub_diag by lia. auto. }
    rewrite O, nth_error_map in X. destruct (nth_error (o_heap (d_om d3)) (List.length (a_objs a))) as [kv|]; [|discriminate].
    simpl in X. split; [discriminate|]. intros kv2 Y. congruence. }
  unfold nthIter. destruct (nth_error (o_heap (d_om d3)) (List.length (a_objs a))) as [[k1 v1]|] eqn:X; [|destruct NI; congruence].
  assert (k1 = k) by (apply (proj2 NI (k1, v1)); auto). subst k1. cbn [ddeleteWithIter]. rewrite (idx_entry cmp OK id d3 a3 _ D3), M3.
  destruct (tNext (o_tree (d_om d3)) (List.length (a_objs a))) as [it|] eqn:T; auto. exfalso.
  apply tNext_in in T. destruct T as [[i I] _].
  destruct (di_ids cmp id d3 a3 D3 _ _ I) as (k2 & v2 & Y & Z). rewrite X in Y. injection Y as <- <-. subst i.
  rewrite (di_map cmp id d3 a3 D3), (entry_in cmp OK _ _ _ (di_w cmp id d3 a3 D3) I), X in M3. injection M3 as M3. lia.
Qed.
Print Assumptions C14_stale_iterator_refuted.

Example C14_stale_nonvacuous : goodIters N.compare fst (mkAbs [] (fun _ => None)) exD /\
  binding (absOf N.compare fst exD) 9%N = None.
Proof. split; [repeat split|vm_compute; reflexivity]. Qed.

