(** Property theorems for omap (/repo/omap.go, /repo/tube/omap.go). *)
From Coq Require Import List NArith Arith Lia Bool Sorted.
From Verif Require Import Base Omap_Model Omap_Spec Omap_Proofs Omap_Proofs2.
Import ListNotations.

Definition isSome {A} (o : option A) : bool := match o with Some _ => true | None => false end.

(** ** C11 *)

(** After any history of calls an omap is the sorted finite map of that
    history: get2, Len, the results of set and delkey, cached() and a range that
    stops anywhere all agree with it, and no call panics. *)
Theorem C11_omap_is_sorted_map : forall (K V : Type) (cmp : K -> K -> comparison), ord_ok cmp ->
  forall calls : list (oop K V), exists s l,
    orun cmp calls = Ok s /\
    enumerates cmp (valueAfter cmp calls) l /\
    Len s = List.length l /\
    (forall k, get2 cmp s k = Ok (valueAfter cmp calls k)) /\
    (forall k v, fst (oset cmp s k v) = negb (isSome (valueAfter cmp calls k))) /\
    (forall k, exists next s', delkey cmp s k = Ok (isSome (valueAfter cmp calls k), next, s')) /\
    readPtrs s (fst (cached s)) = map (fun kv => (fst kv, Some (snd kv))) l /\
    (forall n, exists u s', all (lookBody n) (Len s) 0 s = Ok (Some (u, s', firstn (Nat.max 1 n) l))).
Proof.
  intros K V cmp OK calls. destruct (orun_spec cmp OK calls) as (s & R & W & L).
  destruct (pairs_exist (o_heap s) (o_tree s) (wi_heap cmp s W)) as [l PR].
  exists s, l. split; auto. split.
  { destruct (pairs_enum cmp OK s l W PR) as [A B]. split; auto. intros k v. rewrite B, L. tauto. }
  split; [apply (pairs_len _ _ _ PR)|].
  split; [intros k; rewrite (get2_look cmp OK) by auto; rewrite L; auto|].
  split.
  { intros k v. destruct (oset_spec cmp OK s k v W) as (_ & E & _). rewrite E, L. destruct (valueAfter cmp calls k); auto. }
  split.
  { intros k. rewrite <- L. destruct (look cmp s k) as [v|] eqn:E.
    - destruct (delkey_present cmp OK s k v W E) as (pre & p & post & s' & _ & D & _). eauto.
    - rewrite (delkey_absent cmp OK s k W E). eauto. }
  split.
  { destruct (cached_spec cmp s W) as (C & _). rewrite C. apply (pairs_rd _ _ _ PR). }
  intros n. destruct (all_look cmp n (Len s) s l W PR (le_n _)) as (u & s' & A & _). eauto.
Qed.
Print Assumptions C11_omap_is_sorted_map.

Lemma Ncompare_ok : ord_ok N.compare.
Proof.
  repeat split.
  - apply N.compare_eq.
  - intros ->. apply N.compare_refl.
  - intros a b. apply N.compare_antisym.
  - intros a b c A B. rewrite N.compare_lt_iff in *. lia.
Qed.

Definition exCalls : list (oop N N) :=
  [OSet 5 50; OSet 2 20; OCached; OSet 9 90; OPoke 2 21; OAll 2; ODel 5; OSet 7 70; OAll 9; OSet 9 91]%N.

Example C11_nonvacuous : ord_ok N.compare /\
  map (valueAfter N.compare exCalls) [2; 5; 7; 9]%N = [Some 21; None; Some 70; Some 91]%N /\
  exists s u s', orun N.compare exCalls = Ok s /\ Len s = 3%nat /\
    all (lookBody 9) 3 0 s = Ok (Some (u, s', [(2, 21); (7, 70); (9, 91)]%N)).
Proof. split; [apply Ncompare_ok|]. split; [(vm_compute; reflexivity)|]. do 3 eexists. split; [(vm_compute; reflexivity)|]. split; (vm_compute; reflexivity). Qed.

(** ** C12 *)

(** A range on a cold order cache (the map was written since it was last
    enumerated), whose body does what the documentation allows: every key is
    handed to the body exactly once in order, with its current value, and
    nothing but the bodies changes the map. A body that stops early has seen a
    prefix. *)
Theorem C12_range_with_deletes_cold : forall (K V : Type) (cmp : K -> K -> comparison), ord_ok cmp ->
  forall (calls : list (oop K V)) s l dec,
    orun cmp calls = Ok s -> cacheHit s = false -> enumerates cmp (valueAfter cmp calls) l ->
    (forall i k v, Forall (licensed k) (fst (dec i k v))) ->
    exists i s' seen j, all (script cmp dec) (Len s) 0 s = Ok (Some (i, s', seen)) /\
      bodiesRun cmp dec 0 seen s s' /\ map fst seen = firstn j (map fst l) /\
      ((forall i k v, snd (dec i k v) = true) -> map fst seen = map fst l).
Proof.
  intros K V cmp OK calls s l dec R CH EN AL.
  destruct (orun_spec cmp OK calls) as (s1 & R1 & W & L). rewrite R in R1. injection R1 as <-.
  destruct (all_script_cold cmp OK dec (Len s) s AL W CH (le_n _)) as (i & s' & seen & j & A & _ & B & C & D).
  assert (E : map fst l = map fst (o_tree s)) by (eapply pairs_keys, enum_tree; eauto).
  exists i, s', seen, j. rewrite E. auto.
Qed.
Print Assumptions C12_range_with_deletes_cold.

(** In particular a "delete while ranging" filter, run right after a write,
    sees every pair and leaves exactly the pairs it did not delete. *)
Theorem C12_filter_in_place : forall (K V : Type) (cmp : K -> K -> comparison), ord_ok cmp ->
  forall (calls : list (oop K V)) k0 v0 s l (drop : K -> V -> bool),
    orun cmp (calls ++ [OSet k0 v0]) = Ok s -> enumerates cmp (valueAfter cmp (calls ++ [OSet k0 v0])) l ->
    exists i s' seen,
      all (script cmp (fun _ k v => (if drop k v then [ODel k] else [], true))) (Len s) 0 s = Ok (Some (i, s', seen)) /\
      seen = l /\
      forall k, get2 cmp s' k = Ok (match valueAfter cmp (calls ++ [OSet k0 v0]) k with
                                    | Some v => if drop k v then None else Some v
                                    | None => None end).
Proof.
  intros K V cmp OK calls k0 v0 s l drop R EN.
  set (dec := fun (_ : nat) (k : K) (v : V) => (if drop k v then [ODel k] else ([] : list (oop K V)), true)).
  assert (CH : cacheHit s = false).
  { unfold orun in R. rewrite run_res_app in R.
    destruct (run_res (ostep cmp) newOmap calls) as [s1|]; [|discriminate]. simpl in R. injection R as <-.
    unfold cacheHit. apply andb_false_intro2. unfold oset. destruct (findGE cmp (o_tree s1) k0) as [[[? ?]|] []]; cbn [snd o_cver o_ver];
    apply N.eqb_neq; lia. }
  assert (AL : forall i k v, Forall (licensed k) (fst (dec i k v))).
  { intros i k v. unfold dec. simpl. destruct (drop k v); repeat constructor. }
  destruct (C12_range_with_deletes_cold K V cmp OK _ s l dec R CH EN AL) as (i & s' & seen & j & A & B & _ & D).
  specialize (D (fun _ _ _ => eq_refl)).
  destruct (orun_spec cmp OK (calls ++ [OSet k0 v0])) as (s1 & R1 & W & L). rewrite R in R1. injection R1 as <-.
  pose proof (pairs_keys _ _ _ (enum_tree cmp OK s l _ W L EN)) as KL.
  assert (SW : winv cmp (strip s)) by (eapply strip_winv; eauto).
  destruct (filter_chain cmp OK drop s' seen 0 s _ SW L B) as (W' & I & L').
  { rewrite D. apply EN. }
  assert (SL : seen = l).
  { destruct EN as [_ EN]. assert (EN' : forall k v, In (k, v) l -> valueAfter cmp (calls ++ [OSet k0 v0]) k = Some v) by (intros; apply EN; auto).
    clear - D I EN'. revert seen D I EN'. induction l as [|[k v] l IH]; intros [|[k' v'] seen] D I EN'; try discriminate; auto.
    simpl in D. injection D as -> D. f_equal.
    - f_equal. assert (X := I k v' (or_introl eq_refl)). assert (Y := EN' k v (or_introl eq_refl)). congruence.
    - apply IH; auto; intros; [apply I|apply EN']; simpl; auto. }
  exists i, s', seen. split; auto. split; auto. intros k.
  change (get2 cmp s' k) with (get2 cmp (strip s') k). rewrite (get2_look cmp OK) by auto.
  change (look cmp (strip s') k) with (look cmp s' k). rewrite L'.
  destruct (valueAfter cmp (calls ++ [OSet k0 v0]) k) as [v|] eqn:VA; auto.
  assert (X : existsb (fun kv => same cmp (fst kv) k) seen = true).
  { apply existsb_exists. exists (k, v). split; [rewrite SL; apply EN; auto|]. simpl. apply (same_true cmp OK). auto. }
  rewrite X. cbn [andb]. auto.
Qed.
Print Assumptions C12_filter_in_place.

Example C12_nonvacuous : exists s l s',
  orun N.compare ([OSet 3 30; OSet 1 10; OCached] ++ [OSet 2 20])%N = Ok s /\
  enumerates N.compare (valueAfter N.compare ([OSet 3 30; OSet 1 10; OCached] ++ [OSet 2 20])%N) l /\
  all (script N.compare (fun _ k v => (if N.eqb k 2 then [ODel k] else [], true))) (Len s) 0 s = Ok (Some (3%nat, s', l)) /\
  get2 N.compare s' 2%N = Ok None /\ get2 N.compare s' 3%N = Ok (Some 30%N).
Proof.
  exists (match orun N.compare ([OSet 3 30; OSet 1 10; OCached] ++ [OSet 2 20])%N with Ok s => s | Panic => newOmap end),
    [(1, 10); (2, 20); (3, 30)]%N. eexists. split; [vm_compute; reflexivity|]. split; [|split; [vm_compute; reflexivity|split; vm_compute; reflexivity]].
  split; [repeat constructor|]. intros k v. unfold valueAfter. simpl. unfold same.
  destruct (N.compare_spec 2 k); [subst; split; [intros [H|[H|[H|[]]]]; congruence|intros H; injection H as <-; auto]| |];
  (destruct (N.compare_spec 1 k); [subst; split; [intros [H2|[H2|[H2|[]]]]; congruence|intros H2; injection H2 as <-; auto]| |]);
  (destruct (N.compare_spec 3 k); [subst; split; [intros [H3|[H3|[H3|[]]]]; congruence|intros H3; injection H3 as <-; auto]| |]);
  (split; [intros [E|[E|[E|[]]]]; injection E as <- <-; lia|discriminate]).
Qed.

(** On a warm order cache the same range still never repeats or invents a key,
    but it may end one key early, and exactly when the last key handed over was
    deleted in its body. *)
Theorem C12_range_with_deletes_warm_partial : forall (K V : Type) (cmp : K -> K -> comparison), ord_ok cmp ->
  forall (calls : list (oop K V)) s l dec,
    orun cmp calls = Ok s -> cacheHit s = true -> enumerates cmp (valueAfter cmp calls) l ->
    (forall i k v, Forall (licensed k) (fst (dec i k v))) -> (forall i k v, snd (dec i k v) = true) ->
    exists i s' seen, all (script cmp dec) (Len s) 0 s = Ok (Some (i, s', seen)) /\
      bodiesRun cmp dec 0 seen s s' /\
      (map fst seen = map fst l \/
       exists k v seen0 k2, seen = seen0 ++ [(k, v)] /\ map fst seen ++ [k2] = map fst l /\ get2 cmp s' k = Ok None).
Proof.
  intros K V cmp OK calls s l dec R CH EN AL GO.
  destruct (orun_spec cmp OK calls) as (s1 & R1 & W & L). rewrite R in R1. injection R1 as <-.
  rewrite (pairs_keys _ _ _ (enum_tree cmp OK s l _ W L EN)).
  destruct (all_script_hot cmp OK dec (Len s) s AL W CH (le_n _)) as (i & s' & seen & j & A & W' & B & _ & D).
  exists i, s', seen. split; auto. split; auto. destruct (D GO) as [X|(k & v & l0 & k2 & X1 & X2 & X3)]; auto.
  right. exists k, v, l0, k2. rewrite (get2_look cmp OK), X3 by auto. auto.
Qed.
Print Assumptions C12_range_with_deletes_warm_partial.

(** And that happens for every map with at least two keys: enumerate it once,
    then delete the second-to-last key while ranging: the last key, still live,
    is never handed to the body. *)
Theorem C12_warm_delete_skips_last_refuted : forall (K V : Type) (cmp : K -> K -> comparison), ord_ok cmp ->
  forall (calls : list (oop K V)) s l0 k1 v1 k2 v2,
    orun cmp (calls ++ [OCached]) = Ok s ->
    enumerates cmp (valueAfter cmp calls) (l0 ++ [(k1, v1); (k2, v2)]) ->
    exists i s' seen,
      all (script cmp (fun _ k _ => (if same cmp k k1 then [ODel k] else [], true))) (Len s) 0 s = Ok (Some (i, s', seen)) /\
      map fst seen = map fst l0 ++ [k1] /\ (exists v, get2 cmp s' k2 = Ok (Some v)) /\ ~ In k2 (map fst seen).
Proof.
  intros K V cmp OK calls s l0 k1 v1 k2 v2 R EN.
  destruct (orun_spec cmp OK (calls ++ [OCached])) as (s1 & R1 & W & L). rewrite R in R1. injection R1 as <-.
  assert (L2 : forall k, look cmp s k = valueAfter cmp calls k).
  { intros k. rewrite L. unfold valueAfter. rewrite rev_app_distr. reflexivity. }
  pose proof (enum_tree cmp OK s _ _ W L2 EN) as PR.
  assert (CH : cacheHit s = true).
  { unfold orun in R. rewrite run_res_app in R. destruct (run_res (ostep cmp) newOmap calls) as [s0|]; [|discriminate].
    simpl in R. injection R as <-. unfold cached. destruct (cacheHit s0) eqn:E; auto.
    unfold cacheHit. simpl. rewrite Nat.eqb_refl, N.eqb_refl. auto. }
  unfold all. rewrite CH, (cacheHit_tree cmp s W CH). unfold tMin.
  apply Forall2_app_inv_r in PR. destruct PR as (t1 & t2 & P1 & P2 & T).
  inversion P2 as [|[a1 p1] ? t3 ? [X1 Y1] P3]; subst. inversion P3 as [|[a2 p2] ? t4 ? [X2 Y2] P4]; subst.
  inversion P4; subst. simpl in *. subst a1 a2.
  destruct (hot_skip cmp OK k1 p1 k2 p2 t1 [] (Len s) 0 s W T) as (i & s' & seen & A & F & T' & W').
  rewrite <- T in A. cbn [List.length] in A. exists i, s', seen. split; auto. rewrite F. split; [rewrite (pairs_keys _ _ _ P1); auto|].
  split.
  - destruct (value_at cmp OK s' t1 k2 p2 [] W' T') as (v & _ & G). eauto.
  - pose proof (wi_sorted cmp s W) as S. rewrite T in S. clear - S OK.
    change (t1 ++ [(k1, p1); (k2, p2)]) with (t1 ++ [(k1, p1)] ++ [(k2, p2)]) in S. rewrite app_assoc in S.
    apply (nsorted_mid cmp) in S. destruct S as [S _]. intros I.
    change [k1] with (map fst [(k1, p1)]) in I. rewrite <- map_app in I. apply in_map_iff in I. destruct I as (n & E & I).
    rewrite Forall_forall in S. specialize (S _ I). rewrite E, (cmp_refl cmp OK) in S. discriminate.
Qed.
Print Assumptions C12_warm_delete_skips_last_refuted.

Example C12_warm_nonvacuous : exists s s',
  orun N.compare ([OSet 1 10; OSet 2 20; OSet 3 30] ++ [OCached])%N = Ok s /\ cacheHit s = true /\
  all (script N.compare (fun _ k _ => (if same N.compare k 2 then [ODel k] else [], true))%N) (Len s) 0 s = Ok (Some (2%nat, s', [(1, 10); (2, 20)]%N)) /\
  get2 N.compare s' 3%N = Ok (Some 30%N).
Proof. do 2 eexists. split; [(vm_compute; reflexivity)|]. split; [(vm_compute; reflexivity)|]. split; (vm_compute; reflexivity). Qed.

(** ** C13 *)

(** What delkey of a key that is not in the map returns: found = false, and an
    iterator on the first larger key. It is at the end exactly when no larger
    key is in the map. *)
Theorem C13_delkey_absent_partial : forall (K V : Type) (cmp : K -> K -> comparison), ord_ok cmp ->
  forall (calls : list (oop K V)) k, valueAfter cmp calls k = None ->
  exists s next, orun cmp calls = Ok s /\ delkey cmp s k = Ok (false, next, s) /\
    match next with
    | Some n => cmp k (fst n) = Lt /\ valueAfter cmp calls (fst n) <> None /\
                forall k' v', valueAfter cmp calls k' = Some v' -> cmp k k' = Lt -> cmp k' (fst n) <> Lt
    | None => forall k' v', valueAfter cmp calls k' = Some v' -> cmp k k' <> Lt
    end.
Proof.
  intros K V cmp OK calls k VA. destruct (orun_spec cmp OK calls) as (s & R & W & L).
  assert (LK : look cmp s k = None) by (rewrite L; auto).
  destruct (findGE_split cmp OK (o_tree s) k (wi_sorted cmp s W)) as (pre & post & T & A & B & _).
  exists s, (hd_error post). split; auto. split.
  { rewrite (delkey_absent cmp OK s k W LK), T, filter_app. do 3 f_equal.
    replace (filter (fun n : node K => match cmp (fst n) k with Lt => false | _ => true end) pre) with (@nil (node K)).
    - cbn [app]. f_equal. clear - B. induction B as [|n post H B IH]; simpl; auto. rewrite IH. destruct (cmp (fst n) k); congruence.
    - clear - A. induction A as [|n pre H A IH]; simpl; auto. rewrite H. auto. }
  assert (IN : forall k' v', valueAfter cmp calls k' = Some v' -> exists p, In (k', p) (o_tree s)).
  { intros k' v' V'. rewrite <- L in V'. apply (look_some cmp OK) in V'; auto. destruct V' as (p & I & _). eauto. }
  rewrite Forall_forall in A.
  assert (GT : forall k' v', valueAfter cmp calls k' = Some v' -> cmp k k' = Lt -> exists p, In (k', p) post).
  { intros k' v' V' LT. destruct (IN _ _ V') as (p & I). rewrite T in I. apply in_app_or in I. destruct I as [I|I]; eauto.
    apply A in I. simpl in I. pose proof (cmp_trans cmp OK _ _ _ LT I) as X. rewrite (cmp_refl cmp OK) in X. discriminate. }
  destruct post as [|[k2 p2] post]; simpl.
  - intros k' v' V' LT. destruct (GT _ _ V' LT) as (p & []).
  - assert (I2 : In (k2, p2) (o_tree s)) by (rewrite T; apply in_or_app; simpl; auto).
    inversion B as [|? ? B1 _]; subst. simpl in B1.
    assert (V2 : valueAfter cmp calls k2 <> None).
    { rewrite <- L, (look_in cmp OK s k2 p2 W I2). apply nth_error_Some.
      pose proof (wi_heap cmp s W) as H. rewrite Forall_forall in H. apply (H _ I2). }
    split.
    { destruct OK as (O1 & O2 & O3). rewrite O2. destruct (cmp k2 k) eqn:E; auto; [|congruence].
      apply O1 in E. subst. congruence. }
    split; auto. intros k' v' V' LT LT2. destruct (GT _ _ V' LT) as (p & I).
    pose proof (wi_sorted cmp s W) as S. rewrite T in S. apply (nsorted_mid cmp) in S. destruct S as [_ S].
    rewrite Forall_forall in S. destruct I as [I|I].
    + injection I as <- <-. rewrite (cmp_refl cmp OK) in LT2. discriminate.
    + apply S in I. simpl in I. pose proof (cmp_trans cmp OK _ _ _ I LT2) as X. rewrite (cmp_refl cmp OK) in X. discriminate.
Qed.
Print Assumptions C13_delkey_absent_partial.

(** The documented contract ("an absent key returns an end iterator") fails
    exactly when a larger key is present. *)
Theorem C13_end_iterator_refuted : forall (K V : Type) (cmp : K -> K -> comparison), ord_ok cmp ->
  forall (calls : list (oop K V)) k k2 v2,
    valueAfter cmp calls k = None -> valueAfter cmp calls k2 = Some v2 -> cmp k k2 = Lt ->
    exists s n, orun cmp calls = Ok s /\ delkey cmp s k = Ok (false, Some n, s).
Proof.
  intros K V cmp OK calls k k2 v2 A B C. destruct (C13_delkey_absent_partial K V cmp OK calls k A) as (s & [n|] & R & D & X); eauto.
  exfalso. exact (X _ _ B C).
Qed.
Print Assumptions C13_end_iterator_refuted.

Example C13_nonvacuous : valueAfter N.compare exCalls 3%N = None /\ valueAfter N.compare exCalls 7%N = Some 70%N /\
  exists s p, orun N.compare exCalls = Ok s /\ delkey N.compare s 3%N = Ok (false, Some (7%N, p), s) /\
    delkey N.compare s 10%N = Ok (false, None, s).
Proof. split; [(vm_compute; reflexivity)|]. split; [(vm_compute; reflexivity)|]. do 2 eexists. split; [(vm_compute; reflexivity)|]. split; (vm_compute; reflexivity). Qed.

(** ** C38 *)

(** Ranging inside a range (both only reading) and breaking out of both can
    leave an order cache that is taken for valid but is wrong: the next range
    repeats a key and misses a live one. *)
Theorem C38_nested_range_corrupts_refuted : exists s s' u u' s'' seen,
  orun N.compare [OSet 1 10; OSet 2 20; OSet 3 30]%N = Ok s /\
  all (script N.compare (fun i k _ => (if N.eqb k 1 then [OAll 2] else [], N.eqb k 1))%N) (Len s) 0 s = Ok (Some (u, s', seen)) /\
  cacheHit s' = true /\
  all (lookBody 9) (Len s') 0 s' = Ok (Some (u', s'', [(1, 10); (2, 20); (2, 20)]%N)) /\
  get2 N.compare s' 3%N = Ok (Some 30%N) /\ get2 N.compare s'' 3%N = Ok (Some 30%N).
Proof. do 6 eexists. split; [(vm_compute; reflexivity)|]. split; [(vm_compute; reflexivity)|]. split; [(vm_compute; reflexivity)|]. split; [(vm_compute; reflexivity)|]. split; (vm_compute; reflexivity). Qed.
Print Assumptions C38_nested_range_corrupts_refuted.
