(** A dmap is an omap (of key objects and values) plus an index that agrees
    with its tree: proof by simulation. *)
From Coq Require Import List NArith Arith Lia Bool Sorted Permutation.
From Verif Require Import Base Omap_Model Omap_Spec Omap_Proofs Omap_Proofs2 Dmap_Model Dmap_Spec.
Import ListNotations.

Section P.
Context {Id Obj V : Type} (cmp : Id -> Id -> comparison) (OK : ord_ok cmp) (id : Obj -> Id).
Notation dmap := (dmap Id Obj V).
Notation absmap := (absmap Id Obj V).

(** entry of an id: node pointer, key object, value *)
Definition entry (s : @omap Id (Obj * V)) (i : Id) : option (nat * Obj * V) :=
  match findGE cmp (o_tree s) i with
  | (Some (_, p), true) => match nth_error (o_heap s) p with Some (k, v) => Some (p, k, v) | None => None end
  | _ => None
  end.

Record dinv (d : dmap) (a : absmap) : Prop := {
  di_w : winv cmp (strip (d_om d));
  di_idx : Permutation (d_idx d) (o_tree (d_om d));
  di_objs : a_objs a = map fst (o_heap (d_om d));
  di_ids : forall i p, In (i, p) (o_tree (d_om d)) -> exists k v, nth_error (o_heap (d_om d)) p = Some (k, v) /\ id k = i;
  di_map : forall i, a_map a i = entry (d_om d) i }.

Lemma entry_in : forall (s : omap) i p, winv cmp (strip s) -> In (i, p) (o_tree s) ->
  entry s i = match nth_error (o_heap s) p with Some (k, v) => Some (p, k, v) | None => None end.
Proof. intros s i p W I. unfold entry. rewrite (findGE_in cmp OK (o_tree s) i p (wi_sorted cmp (strip s) W) I). auto. Qed.

Lemma entry_some : forall (s : omap) i p k v, winv cmp (strip s) -> entry s i = Some (p, k, v) ->
  In (i, p) (o_tree s) /\ nth_error (o_heap s) p = Some (k, v).
Proof.
  intros s i p k v W H. unfold entry in H. destruct (findGE cmp (o_tree s) i) as [[[k' q]|] []] eqn:E; try discriminate.
  apply (findGE_found cmp OK) in E; [|apply W]. destruct E as (-> & pre & post & E).
  destruct (nth_error (o_heap s) q) as [[k2 v2]|] eqn:N; [|discriminate]. injection H as -> -> ->.
  split; auto. rewrite E. apply in_or_app. simpl. auto.
Qed.

Lemma entry_look : forall (s : omap) i, look cmp s i = match entry s i with Some (_, k, v) => Some (k, v) | None => None end.
Proof.
  intros s i. unfold look, entry. destruct (findGE cmp (o_tree s) i) as [[[k' q]|] []]; auto.
  destruct (nth_error (o_heap s) q) as [[? ?]|]; auto.
Qed.

Lemma tree_ids_nodup : forall (s : @omap Id (Obj * V)), winv cmp (strip s) -> NoDup (map fst (o_tree s)).
Proof.
  intros s W. pose proof (wi_sorted cmp (strip s) W) as S. unfold nsorted in S. cbn [strip o_tree] in S. clear W. induction (o_tree s) as [|[i p] t IH]; simpl; [constructor|].
  inversion S as [|? ? S1 S2]; subst. constructor; auto. intros I.
  rewrite Forall_forall in S2. specialize (S2 _ I). simpl in S2. rewrite (cmp_refl cmp OK) in S2. discriminate.
Qed.

Lemma idxGet_in : forall m i p, NoDup (map fst m) -> (idxGet cmp m i = Some p <-> In (i, p) m).
Proof.
  induction m as [|[j q] m IH]; intros i p N; simpl; [split; [discriminate|contradiction]|].
  inversion N; subst. destruct (same_spec cmp OK j i) as [->|NE].
  - split; [intros H; injection H as ->; auto|]. intros [H|H]; [congruence|]. exfalso. apply H1. apply in_map_iff. exists (i, p). auto.
  - rewrite IH by auto. split; auto. intros [H|H]; auto. congruence.
Qed.

Lemma idx_entry : forall d a i, dinv d a ->
  idxGet cmp (d_idx d) i = match a_map a i with Some (p, _, _) => Some p | None => None end.
Proof.
  intros d a i [W P O I M].
  assert (N : NoDup (map fst (d_idx d))).
  { eapply Permutation_NoDup; [apply Permutation_map, Permutation_sym, P|]. apply tree_ids_nodup; auto. }
  rewrite M. destruct (entry (d_om d) i) as [[[p k] v]|] eqn:E.
  - apply entry_some in E; auto. apply idxGet_in; auto. eapply Permutation_in; [apply Permutation_sym, P|]. apply E.
  - destruct (idxGet cmp (d_idx d) i) as [p|] eqn:G; auto. apply idxGet_in in G; auto.
    apply (Permutation_in _ P) in G. rewrite (entry_in _ i p W G) in E. destruct (I _ _ G) as (k & v & X & _).
    rewrite X in E. discriminate.
Qed.

Lemma dsorted : forall d a, dinv d a -> nsorted cmp (o_tree (d_om d)).
Proof. intros d a D. apply (wi_sorted cmp _ (di_w d a D)). Qed.
Lemma dheap : forall d a, dinv d a -> Forall (fun n => snd n < List.length (o_heap (d_om d))) (o_tree (d_om d)).
Proof. intros d a D. apply (wi_heap cmp _ (di_w d a D)). Qed.

Lemma dLen_len : forall d a, dinv d a -> dLen d = Len (d_om d).
Proof. intros d a [W P _ _ _]. apply Permutation_length; auto. Qed.

Lemma same_refl : forall i : Id, same cmp i i = true.
Proof. intros. unfold same. rewrite (cmp_refl cmp OK). auto. Qed.

(** ** set *)
Lemma dset_hit : forall d a k v p k0 v0, dinv d a -> a_map a (id k) = Some (p, k0, v0) ->
  exists d', dset cmp id d k v = Ok (false, d') /\ d_om d' = snd (oset cmp (d_om d) (id k) (k0, v)) /\
    d_om d' = mkOmap (o_tree (d_om d)) (hset (o_heap (d_om d)) p (k0, v)) (o_ver (d_om d) + 1) [] 0 /\
    dinv d' (absStep cmp id a (DSet k v)).
Proof.
  intros d a k v p k0 v0 D E. pose proof D as [W P O I M]. unfold dset. rewrite (idx_entry d a _ D), E.
  pose proof E as E'. rewrite M in E'. apply entry_some in E'; auto. destruct E' as [IN NE]. rewrite NE. eexists. split; [reflexivity|].
  cbn [d_om]. unfold oset. rewrite (findGE_in cmp OK _ _ _ (dsorted d a D) IN). cbn [snd]. split; auto. split; auto.
  assert (LT : p < List.length (o_heap (d_om d))) by (apply nth_error_Some; congruence).
  pose proof (oset_spec cmp OK _ (id k) (k0, v) W) as (W' & _). unfold oset in W'. cbn [strip o_tree] in W'.
  rewrite (findGE_in cmp OK _ _ _ (dsorted d a D) IN) in W'. cbn [snd strip o_heap o_ver] in W'.
  cbn [absStep]. rewrite E. constructor; cbn [d_om d_idx o_tree o_heap a_objs a_map]; auto.
  - eapply strip_winv; eauto.
  - rewrite O. clear - NE. revert p NE. induction (o_heap (d_om d)) as [|x h IH]; intros [|p] NE; simpl in *; auto.
    + injection NE as ->. auto.
    + f_equal. auto.
  - intros i q J. rewrite hset_nth by auto. destruct (Nat.eqb_spec p q) as [<-|]; [|apply I; auto].
    exists k0, v. split; auto. destruct (I _ _ J) as (k1 & v1 & X & Y). congruence.
  - intros i. unfold upd, entry. cbn [o_tree o_heap]. rewrite M. unfold entry.
    destruct (same_spec cmp OK (id k) i) as [<-|NQ].
    + rewrite (findGE_in cmp OK _ _ _ (dsorted d a D) IN), hset_nth, Nat.eqb_refl by auto. auto.
    + destruct (findGE cmp (o_tree (d_om d)) i) as [[[j q]|] []] eqn:F; auto.
      rewrite hset_nth by auto. destruct (Nat.eqb_spec p q) as [<-|]; auto. exfalso.
      apply (findGE_found cmp OK) in F; [|apply W]. destruct F as (-> & pre & post & F).
      assert (J : In (i, p) (o_tree (d_om d))) by (rewrite F; apply in_or_app; simpl; auto).
      destruct (I _ _ J) as (k1 & v1 & X & Y). destruct (I _ _ IN) as (k2 & v2 & X2 & Y2). congruence.
Qed.

Lemma insert_perm : forall (t : list (node Id)) k p, Permutation (tInsert cmp t k p) ((k, p) :: t).
Proof.
  induction t as [|[j q] t IH]; intros k p; simpl; auto. destruct (cmp j k); auto.
  eapply Permutation_trans; [apply perm_skip, IH|]. apply perm_swap.
Qed.

Lemma dset_miss : forall d a k v, dinv d a -> a_map a (id k) = None ->
  exists d', dset cmp id d k v = Ok (true, d') /\ d_om d' = snd (oset cmp (d_om d) (id k) (k, v)) /\
    dinv d' (absStep cmp id a (DSet k v)).
Proof.
  intros d a k v D E. pose proof D as [W P O I M]. unfold dset. rewrite (idx_entry d a _ D), E.
  assert (NI : forall p, ~ In (id k, p) (o_tree (d_om d))).
  { intros p J. rewrite M, (entry_in _ _ p W J) in E. destruct (I _ _ J) as (k1 & v1 & X & _). rewrite X in E. discriminate. }
  pose proof (oset_spec cmp OK _ (id k) (k, v) W) as (W' & _). unfold oset in W' |- *. cbn [strip o_tree o_heap o_ver] in W'.
  destruct (findGE cmp (o_tree (d_om d)) (id k)) as [it f] eqn:F.
  destruct f.
  { exfalso. destruct it as [[j p]|].
    - apply (findGE_found cmp OK) in F; [|apply W]. destruct F as (-> & pre & post & F). apply (NI p). rewrite F. apply in_or_app. simpl. auto.
    - destruct (findGE_split cmp OK (o_tree (d_om d)) (id k) (dsorted d a D)) as (x & y & _ & _ & _ & X). rewrite X in F.
      destruct y as [|[? ?] ?]; simpl in F; congruence. }
  replace (match it with Some (_, p) => _ | None => _ end) with
    (true, mkOmap (tInsert cmp (o_tree (d_om d)) (id k) (List.length (o_heap (d_om d)))) (o_heap (d_om d) ++ [(k, v)]) (o_ver (d_om d) + 1) [] 0)
    by (destruct it as [[? ?]|]; auto).
  replace (snd _) with (mkOmap (tInsert cmp (o_tree (d_om d)) (id k) (List.length (o_heap (d_om d)))) (o_heap (d_om d) ++ [(k, v)]) (o_ver (d_om d) + 1) [] 0) in W'
    by (destruct it as [[? ?]|]; auto).
  eexists. split; [destruct it as [[? ?]|]; reflexivity|]. cbn [d_om snd]. split; auto.
  cbn [absStep]. rewrite E.
  assert (IP : forall i p, In (i, p) (tInsert cmp (o_tree (d_om d)) (id k) (List.length (o_heap (d_om d)))) <->
      (i, p) = (id k, List.length (o_heap (d_om d))) \/ In (i, p) (o_tree (d_om d))).
  { intros i p. split; intros J.
    - apply (Permutation_in _ (insert_perm _ _ _)) in J. destruct J; auto.
    - eapply Permutation_in; [apply Permutation_sym, insert_perm|]. destruct J; [left|right]; auto. }
  assert (LT : forall i p, In (i, p) (o_tree (d_om d)) -> p < List.length (o_heap (d_om d))).
  { intros i p J. pose proof (dheap d a D) as H. rewrite Forall_forall in H. apply (H _ J). }
  assert (W2 := strip_winv cmp _ _ W' eq_refl eq_refl).
  constructor; cbn [d_om d_idx o_tree o_heap a_objs a_map]; auto.
  - eapply Permutation_trans; [|apply Permutation_sym, insert_perm]. apply perm_skip; auto.
  - rewrite map_app, O. auto.
  - intros i p J. apply IP in J. destruct J as [J|J].
    + injection J as -> ->. exists k, v. rewrite nth_error_app2, Nat.sub_diag by lia. auto.
    + rewrite nth_error_app1 by eauto. apply I; auto.
  - intros i. unfold upd. destruct (same_spec cmp OK (id k) i) as [<-|NQ].
    + rewrite (entry_in _ (id k) (List.length (o_heap (d_om d))) W2) by (apply IP; auto). cbn [o_heap].
      rewrite nth_error_app2, Nat.sub_diag by lia. simpl. rewrite O, map_length. auto.
    + rewrite M. destruct (entry (d_om d) i) as [[[p k1] v1]|] eqn:EE.
      * apply entry_some in EE; auto. destruct EE as [J X]. rewrite (entry_in _ i p W2) by (apply IP; auto). cbn [o_heap].
        rewrite nth_error_app1 by eauto. rewrite X. auto.
      * match goal with |- None = entry ?s i => destruct (entry s i) as [[[p k1] v1]|] eqn:E2; auto end.
        apply entry_some in E2; auto. destruct E2 as [J X]. cbn [o_tree] in J. apply IP in J. destruct J as [J|J]; [congruence|].
        rewrite (entry_in _ i p W J) in EE. destruct (I _ _ J) as (k2 & v2 & Y & _). rewrite Y in EE. discriminate.
Qed.

(** ** delete *)
Lemma filter_perm : forall A (f : A -> bool) l l', Permutation l l' -> Permutation (filter f l) (filter f l').
Proof.
  induction 1; simpl; auto.
  - destruct (f x); auto.
  - destruct (f y), (f x); auto. apply perm_swap.
  - eapply Permutation_trans; eauto.
Qed.

Lemma dinv_delete : forall d a i p, dinv d a -> In (i, p) (o_tree (d_om d)) ->
  exists next s', tNext (o_tree (d_om d)) p = Ok next /\ delkey cmp (d_om d) i = Ok (true, next, s') /\
    s' = mkOmap (tDelete (o_tree (d_om d)) p) (o_heap (d_om d)) (o_ver (d_om d) + 1) [] 0 /\
    next = hd_error (filter (fun n => match cmp (fst n) i with Gt => true | _ => false end) (o_tree (d_om d))) /\
    dinv (mkDmap s' (idxDel cmp (d_idx d) i)) (mkAbs (a_objs a) (upd cmp (a_map a) i None)).
Proof.
  intros d a i p D J. pose proof D as [W P O I M].
  destruct (I _ _ J) as (k & v & X & Y).
  assert (L : look cmp (d_om d) i = Some (k, v)) by (rewrite (look_in cmp OK _ _ _ W J : look cmp (d_om d) i = _); auto).
  destruct (delkey_present cmp OK (strip (d_om d)) _ _ W L) as (pre & q & post & s' & T & DK & S' & W' & LK).
  cbn [strip o_tree o_heap o_ver] in T, S'. apply (delkey_strip cmp) in DK. cbn [strip o_tree o_heap o_ver] in DK.
  assert (q = p).
  { pose proof (findGE_in cmp OK _ i p (dsorted d a D) J) as A. rewrite T in A.
    pose proof (dsorted d a D) as S. rewrite T in S. rewrite (findGE_here cmp OK pre i q post S) in A. congruence. }
  subst q.
  assert (N : NoDup (map snd (pre ++ (i, p) :: post))) by (rewrite <- T; apply W).
  exists (hd_error post), s'. rewrite T at 1. rewrite tNext_split by auto. split; auto. split; auto.
  split; [rewrite S', T, tDelete_split by auto; auto|].
  pose proof (dsorted d a D) as S. rewrite T in S. destruct (nsorted_mid cmp _ _ _ _ S) as [S1 S2].
  split.
  { rewrite T, filter_app. replace (filter _ pre) with (@nil (node Id)).
    - cbn [app filter fst]. rewrite (cmp_refl cmp OK). f_equal. clear - S2 OK. induction post as [|n post IH]; auto.
      inversion S2; subst. destruct OK as (_ & O2 & _). cbn [filter]. rewrite O2, H1. cbn [CompOpp]. f_equal. auto.
    - clear - S1. induction pre as [|n pre IH]; auto. inversion S1; subst. cbn [filter]. rewrite H1. auto. }
  subst s'. assert (W2 := strip_winv cmp _ _ W' eq_refl eq_refl). constructor; cbn [d_om d_idx o_tree o_heap a_objs a_map]; auto.
  - pose proof (others_mid cmp OK pre i p post S) as OM. unfold others in OM. rewrite <- OM, <- T. apply filter_perm; auto.
  - intros j q K. apply I. rewrite T. apply in_app_or in K. apply in_or_app. simpl. tauto.
  - intros j. unfold upd. destruct (same_spec cmp OK i j) as [<-|NE].
    + match goal with |- None = entry ?s ?j => destruct (entry s j) as [[[q k1] v1]|] eqn:E2; auto end.
      pose proof (LK i) as LI. change (look cmp (strip (d_om d))) with (look cmp (d_om d)) in LI. rewrite same_refl, entry_look, E2 in LI. discriminate.
    + rewrite M. destruct (entry (d_om d) j) as [[[q k1] v1]|] eqn:EE.
      * apply entry_some in EE; auto. destruct EE as [K Z].
        assert (K' : In (j, q) (pre ++ post)).
        { rewrite T in K. apply in_app_or in K. apply in_or_app. destruct K as [K|[K|K]]; auto. congruence. }
        rewrite (entry_in _ j q W2 K'). cbn [o_heap]. rewrite Z. auto.
      * match goal with |- None = entry ?s ?j => destruct (entry s j) as [[[q k1] v1]|] eqn:E2; auto end.
        pose proof (LK j) as LI. change (look cmp (strip (d_om d)) j) with (look cmp (d_om d) j) in LI. rewrite !entry_look, E2, EE in LI. destruct (same_spec cmp OK i j); congruence.
Qed.

Lemma upd_none : forall d a i, dinv d a -> a_map a i = None -> dinv d (mkAbs (a_objs a) (upd cmp (a_map a) i None)).
Proof.
  intros d a i [W P O I M] E. constructor; auto. intros j. cbn [a_map]. unfold upd. destruct (same_spec cmp OK i j) as [<-|]; auto.
  rewrite <- M, E. auto.
Qed.

Lemma ddelkey_spec : forall d a k, dinv d a ->
  exists next d', ddelkey cmp id d k = Ok (match a_map a (id k) with Some _ => true | None => false end, next, d') /\
    (exists n2, delkey cmp (d_om d) (id k) = Ok (match a_map a (id k) with Some _ => true | None => false end, n2, d_om d')) /\
    next = match a_map a (id k) with
           | Some _ => hd_error (filter (fun n => match cmp (fst n) (id k) with Gt => true | _ => false end) (o_tree (d_om d)))
           | None => None end /\
    dinv d' (absStep cmp id a (DDel k)).
Proof.
  intros d a k D. unfold ddelkey. rewrite (idx_entry d a _ D). pose proof (di_map d a D (id k)) as M.
  destruct (a_map a (id k)) as [[[p k0] v0]|] eqn:E.
  - pose proof (di_w d a D) as W. symmetry in M. apply entry_some in M; auto. destruct M as [J _].
    destruct (dinv_delete d a _ _ D J) as (next & s' & A & B & C & F & G). rewrite A. cbn [bind]. do 2 eexists.
    split; [reflexivity|]. cbn [d_om]. rewrite <- C. split; [eauto|]. split; auto.
  - do 2 eexists. split; [reflexivity|]. split; [|split; auto].
    + eexists. apply (delkey_strip cmp) with (f := false) (s' := strip (d_om d)). apply (delkey_absent cmp OK); [apply D|].
      change (look cmp (strip (d_om d)) (id k)) with (look cmp (d_om d) (id k)). rewrite entry_look, <- M. auto.
    + cbn [absStep]. apply upd_none; auto.
Qed.

(** ** In-place update *)
Lemma dpoke_spec : forall d a k v, dinv d a -> exists d', dpoke cmp id d k v = Ok d' /\
  dinv d' (absStep cmp id a (DPoke k v)).
Proof.
  intros d a k v D. unfold dpoke, dgetikv. rewrite (idx_entry d a _ D). cbn [absStep].
  destruct (a_map a (id k)) as [[[p k0] v0]|] eqn:E; [|eauto].
  destruct (dset_hit d a k v p k0 v0 D E) as (d2 & A & _ & B & C). cbn [absStep] in C. rewrite E in C.
  unfold dset in A. rewrite (idx_entry d a _ D), E in A. destruct (nth_error (o_heap (d_om d)) p) as [[k1 v1]|] eqn:X; [|discriminate].
  injection A as A. subst d2. cbn [d_om] in B. injection B as B.
  eexists. split; [reflexivity|]. destruct C as [W2 P2 O2 I2 M2].
  cbn [d_om d_idx o_tree o_heap a_objs a_map] in *. pose proof D as [W P O I M].
  constructor; cbn [d_om d_idx o_tree o_heap a_objs a_map]; auto.
  refine (strip_winv cmp _ _ W2 _ _); reflexivity.
Qed.

(** ** Rest of the steps *)
Lemma dinv_omap : forall d a s', dinv d a -> o_tree s' = o_tree (d_om d) -> o_heap s' = o_heap (d_om d) ->
  dinv (mkDmap s' (d_idx d)) a.
Proof.
  intros d a s' [W P O I M] T H. constructor; cbn [d_om d_idx]; rewrite ?T, ?H; auto.
  - eapply strip_winv; eauto.
  - intros i. rewrite M. unfold entry. rewrite T, H. auto.
Qed.

Lemma dinv_new : dinv newDmap (mkAbs [] (fun _ => None)).
Proof.
  constructor; simpl; auto. 2:{ intros; contradiction. }
  constructor; simpl; [constructor|constructor|constructor|]. intros _. left. exists []. auto.
Qed.

(** ** Ranges: the dmap loops simulate the omap loops *)
Section Sim.
Context (yd : @dbody Id Obj V nat) (yo : @body Id (Obj * V) nat) (fa : nat -> Obj -> V -> absmap -> absmap).
Hypothesis ysim : forall u k v d a p, dinv d a -> In (id k, p) (o_tree (d_om d)) -> nth_error (o_heap (d_om d)) p = Some (k, v) ->
  exists d' c, yd u k v d = Ok (S u, d', c) /\ yo u (id k) (k, v) (d_om d) = Ok (S u, d_om d', c) /\
    dinv d' (fa u k v a) /\ (o_ver (d_om d') = o_ver (d_om d) -> o_tree (d_om d') = o_tree (d_om d)) /\
    exists more, a_objs (fa u k v a) = a_objs a ++ more.

Fixpoint absB (i : nat) (l : list (Obj * V)) (a : absmap) : absmap :=
  match l with [] => a | (k, v) :: r => absB (S i) r (fa i k v a) end.

Definition itok (a : absmap) (it : iterator Id) : Prop :=
  match it with Some (i, p) => exists k, nth_error (a_objs a) p = Some k /\ id k = i | None => True end.

Lemma tNext_in : forall (t : list (node Id)) p it, tNext t p = Ok it ->
  (exists i, In (i, p) t) /\ match it with Some n => In n t | None => True end.
Proof.
  induction t as [|[j q] t IH]; intros p it H; simpl in H; [discriminate|].
  destruct (Nat.eqb_spec p q) as [<-|].
  - injection H as <-. split; [exists j; simpl; auto|]. destruct t; simpl; auto.
  - apply IH in H. destruct H as [[i I] J]. split; [exists i; simpl; auto|]. destruct it; simpl; auto.
Qed.

Lemma itok_next : forall d a p it, dinv d a -> tNext (o_tree (d_om d)) p = Ok it -> itok a it.
Proof.
  intros d a p it D H. apply tNext_in in H. destruct H as [_ H]. destruct it as [[i q]|]; simpl; auto.
  destruct (di_ids d a D _ _ H) as (k & v & X & Y). exists k. split; auto. rewrite (di_objs d a D).
  apply (map_nth_error fst _ _ X).
Qed.

Lemma itok_more : forall a a' it, (exists more, a_objs a' = a_objs a ++ more) -> itok a it -> itok a' it.
Proof.
  intros a a' [[i p]|] [more M] H; simpl in *; auto. destruct H as (k & H & E). exists k. split; auto.
  rewrite M. rewrite nth_error_app1; auto. apply nth_error_Some. congruence.
Qed.

(** what is at a node that Next was called on *)
Lemma at_node : forall d a i p it v, dinv d a -> itok a (Some (i, p)) -> tNext (o_tree (d_om d)) p = Ok it ->
  deref (d_om d) p = Ok v -> i = id (fst v) /\ In (i, p) (o_tree (d_om d)) /\ nth_error (o_heap (d_om d)) p = Some v.
Proof.
  intros d a i p it v D (k & N & E) T R. unfold deref in R. destruct (nth_error (o_heap (d_om d)) p) as [[k1 v1]|] eqn:X; [|discriminate].
  injection R as <-. apply tNext_in in T. destruct T as [[j J] _]. rewrite (di_objs d a D) in N.
  rewrite (map_nth_error fst p (o_heap (d_om d)) X) in N. injection N as N.
  destruct (di_ids d a D _ _ J) as (k2 & v2 & Y & Z). rewrite X in Y. injection Y as <- <-. simpl in *. subst k i j. auto.
Qed.

Lemma slow_sim : forall fuel it u d a u' s' l, dinv d a -> itok a it ->
  slowLoop yo fuel it u (d_om d) = Ok (Some (u', s', l)) ->
  exists d', dslowLoop yd fuel it u d = Ok (Some (u', d', map snd l)) /\ d_om d' = s' /\ dinv d' (absB u (map snd l) a).
Proof.
  induction fuel as [|fuel IH]; intros [[i p]|] u d a u' s' l D IT H; simpl in H; try discriminate.
  - injection H as <- <- <-. exists d. auto.
  - simpl. destruct (tNext (o_tree (d_om d)) p) as [it|] eqn:T; [|discriminate]. cbn [bind] in *.
    destruct (deref (d_om d) p) as [[k v]|] eqn:R; [|discriminate]. cbn [bind] in *.
    destruct (at_node d a i p it (k, v) D IT T R) as (E & IN & NE). cbn [fst] in E. subst i.
    destruct (ysim u k v d a p D IN NE) as (d' & c & Y1 & Y2 & D' & _ & MO). rewrite Y1. rewrite Y2 in H. cbn [bind] in *.
    assert (IT' : itok (fa u k v a) it) by (eapply itok_more; [exact MO|]; eapply itok_next; eauto).
    destruct c.
    + destruct (slowLoop yo fuel it (S u) (d_om d')) as [[[[u2 s2] l2]|]|] eqn:SL; try discriminate.
      cbn [addOut bind] in H. injection H as <- <- <-.
      destruct (IH _ _ _ _ _ _ _ D' IT' SL) as (d2 & A & B & C). rewrite A. exists d2. auto.
    + cbn [addOut bind] in H. injection H as <- <- <-. exists d'. auto.
  - injection H as <- <- <-. exists d. auto.
Qed.

Lemma cold_sim : forall fuel vers good it u d a u' s' l, dinv d a -> itok a it ->
  coldLoop yo fuel vers good it u (d_om d) = Ok (Some (u', s', l)) ->
  exists d', dcoldLoop yd fuel vers good it u d = Ok (Some (u', d', map snd l)) /\ d_om d' = s' /\ dinv d' (absB u (map snd l) a).
Proof.
  induction fuel as [|fuel IH]; intros vers good [[i p]|] u d a u' s' l D IT H; simpl in H; try discriminate.
  - injection H as <- <- <-. exists d. auto.
  - simpl. destruct (tNext (o_tree (d_om d)) p) as [it|] eqn:T; [|discriminate]. cbn [bind] in *.
    set (s1 := if good then mkOmap (o_tree (d_om d)) (o_heap (d_om d)) (o_ver (d_om d)) (o_cache (d_om d) ++ [(i, p)]) (o_cver (d_om d)) else d_om d) in *.
    assert (T1 : o_tree s1 = o_tree (d_om d)) by (unfold s1; destruct good; auto).
    assert (H1 : o_heap s1 = o_heap (d_om d)) by (unfold s1; destruct good; auto).
    assert (D1 : dinv (mkDmap s1 (d_idx d)) a) by (apply dinv_omap; auto).
    destruct (deref s1 p) as [[k v]|] eqn:R; [|discriminate]. cbn [bind] in *.
    rewrite <- T1 in T. change (o_tree s1) with (o_tree (d_om (mkDmap s1 (d_idx d)))) in T.
    destruct (at_node _ a i p it (k, v) D1 IT T R) as (E & IN & NE). cbn [fst] in E. subst i.
    destruct (ysim u k v _ a p D1 IN NE) as (d' & c & Y1 & Y2 & D' & _ & MO). rewrite Y1. cbn [d_om] in Y2. rewrite Y2 in H. cbn [bind] in *.
    assert (IT' : itok (fa u k v a) it) by (eapply itok_more; [exact MO|]; eapply itok_next; eauto).
    destruct c; cbn [negb] in *.
    + destruct (negb (N.eqb (o_ver (d_om d')) vers)).
      * match type of H with addOut _ ?r = _ => destruct r as [[[[u2 s2] l2]|]|] eqn:SL; try discriminate end.
        cbn [addOut bind] in H. injection H as <- <- <-.
        assert (D2 : dinv (mkDmap (mkOmap (o_tree (d_om d')) (o_heap (d_om d')) (o_ver (d_om d')) [] 0) (d_idx d')) (fa u k v a)) by (apply dinv_omap; auto).
        destruct (IH vers false it (S u) _ _ u2 s2 l2 D2 IT' SL) as (d2 & A & B & C). rewrite A. exists d2. auto.
      * match type of H with addOut _ ?r = _ => destruct r as [[[[u2 s2] l2]|]|] eqn:SL; try discriminate end.
        cbn [addOut bind] in H. injection H as <- <- <-.
        destruct (IH vers good it (S u) _ _ u2 s2 l2 D' IT' SL) as (d2 & A & B & C). rewrite A. exists d2. auto.
    + cbn [addOut bind] in H. injection H as <- <- <-. exists d'. auto.
  - injection H as <- <- <-. exists d. auto.
Qed.

Lemma hot_sim : forall fuel vers cache done i u d a u' s' l, dinv d a -> o_ver (d_om d) = vers ->
  o_tree (d_om d) = done ++ cache ->
  hotLoop yo fuel vers cache i (hd_error cache) u (d_om d) = Ok (Some (u', s', l)) ->
  exists d', dhotLoop yd fuel vers cache i u d = Ok (Some (u', d', map snd l)) /\ d_om d' = s' /\ dinv d' (absB u (map snd l) a).
Proof.
  intros fuel vers. induction cache as [|[j p] cache IH]; intros done i u d a u' s' l D VE TR H; simpl in H.
  - injection H as <- <- <-. exists d. auto.
  - simpl. destruct (tNext (o_tree (d_om d)) p) as [it|] eqn:T; [|discriminate]. cbn [bind] in *.
    assert (IT : itok a (Some (j, p))).
    { assert (J : In (j, p) (o_tree (d_om d))) by (rewrite TR; apply in_or_app; simpl; auto).
      destruct (di_ids d a D _ _ J) as (k & v & X & Y). exists k. split; auto. rewrite (di_objs d a D). apply (map_nth_error fst _ _ X). }
    destruct (deref (d_om d) p) as [[k v]|] eqn:R; [|discriminate]. cbn [bind] in *.
    destruct (at_node d a j p it (k, v) D IT T R) as (E & IN & NE). cbn [fst] in E. subst j.
    destruct (ysim u k v d a p D IN NE) as (d' & c & Y1 & Y2 & D' & VT & MO). rewrite Y1. rewrite Y2 in H. cbn [bind] in *.
    assert (IT' : itok (fa u k v a) it) by (eapply itok_more; [exact MO|]; eapply itok_next; eauto).
    destruct c; cbn [negb] in *; [|cbn [addOut bind] in H; injection H as <- <- <-; exists d'; auto].
    destruct (N.eqb_spec (o_ver (d_om d')) vers) as [V2|V2].
    + assert (TN : it = hd_error cache).
      { pose proof (wi_nodup cmp _ (di_w d a D)) as N. cbn [strip o_tree] in N. rewrite TR in N, T.
        rewrite tNext_split in T by auto. congruence. }
      subst it. match type of H with addOut _ ?r = _ => destruct r as [[[[u2 s2] l2]|]|] eqn:SL; try discriminate end.
      cbn [addOut bind] in H. injection H as <- <- <-.
      destruct (IH (done ++ [(id k, p)]) (S i) (S u) d' _ u2 s2 l2 D' V2) as (d2 & A & B & C); auto.
      { rewrite VT by congruence. rewrite <- app_assoc. auto. }
      rewrite A. exists d2. auto.
    + destruct (Nat.leb (Len (d_om d')) (S i)).
      * cbn [addOut bind] in H. injection H as <- <- <-. exists d'. auto.
      * match type of H with addOut _ ?r = _ => destruct r as [[[[u2 s2] l2]|]|] eqn:SL; try discriminate end.
        cbn [addOut bind] in H. injection H as <- <- <-.
        destruct (slow_sim _ _ _ _ _ _ _ _ D' IT' SL) as (d2 & A & B & C). rewrite A. exists d2. auto.
Qed.

Lemma all_sim : forall fuel u d a u' s' l, dinv d a -> winv cmp (d_om d) ->
  all yo fuel u (d_om d) = Ok (Some (u', s', l)) ->
  exists d', dall yd fuel u d = Ok (Some (u', d', map snd l)) /\ d_om d' = s' /\ dinv d' (absB u (map snd l) a).
Proof.
  intros fuel u d a u' s' l D W H. unfold all, dall in *. destruct (cacheHit (d_om d)) eqn:CH.
  - rewrite (cacheHit_tree cmp _ W CH) in H |- *. unfold tMin in H. eapply (hot_sim fuel _ _ []); eauto.
  - assert (D1 : dinv (mkDmap (mkOmap (o_tree (d_om d)) (o_heap (d_om d)) (o_ver (d_om d)) [] (o_ver (d_om d))) (d_idx d)) a)
      by (apply dinv_omap; auto).
    eapply cold_sim; eauto. unfold tMin. destruct (o_tree (d_om d)) as [|[i p] t] eqn:T; simpl; auto.
    assert (J : In (i, p) (o_tree (d_om d))) by (rewrite T; simpl; auto).
    destruct (di_ids d a D _ _ J) as (k & v & X & Y). exists k. split; auto. rewrite (di_objs d a D). apply (map_nth_error fst _ _ X).
Qed.
End Sim.

(** ** Every call *)
Definition opOK (a : absmap) (o : dop Obj V) : Prop := goodIters cmp id a [o].

Lemma look_sim : forall n u k v d a p, dinv d a -> In (id k, p) (o_tree (d_om d)) -> nth_error (o_heap (d_om d)) p = Some (k, v) ->
  exists d' c, @dlookBody Id Obj V n u k v d = Ok (S u, d', c) /\ lookBody n u (id k) (k, v) (d_om d) = Ok (S u, d_om d', c) /\
    dinv d' a /\ (o_ver (d_om d') = o_ver (d_om d) -> o_tree (d_om d') = o_tree (d_om d)) /\
    exists more, a_objs a = a_objs a ++ more.
Proof.
  intros n u k v d a p D _ _. exists d, (Nat.ltb (S u) n). split; auto. split; auto. split; auto. split; auto. exists []. rewrite app_nil_r. auto.
Qed.

Lemma absB_same : forall l i (a : absmap), absB (fun _ _ _ a => a) i l a = a.
Proof. induction l as [|[k v] l IH]; intros; simpl; auto. Qed.

Lemma dall_look : forall n d a, dinv d a -> winv cmp (d_om d) ->
  exists u d' l, dall (dlookBody n) (Len (d_om d)) 0 d = Ok (Some (u, d', firstn (Nat.max 1 n) (map snd l))) /\
    pairs (o_heap (d_om d)) (o_tree (d_om d)) l /\ dinv d' a /\ winv cmp (d_om d').
Proof.
  intros n d a D W. destruct (pairs_exist (o_heap (d_om d)) (o_tree (d_om d)) (wi_heap cmp _ W)) as [l PR].
  destruct (all_look cmp n (Len (d_om d)) (d_om d) l W PR (le_n _)) as (u & s' & A & W' & _).
  destruct (all_sim (dlookBody n) (lookBody n) (fun _ _ _ a => a) (look_sim n) _ _ _ _ _ _ _ D W A) as (d' & B & C & E).
  rewrite absB_same in E. exists u, d', l. rewrite firstn_map. subst s'. auto.
Qed.

Lemma dstep_spec : forall d a o, dinv d a -> winv cmp (d_om d) -> opOK a o ->
  exists d', dstep cmp id d o = Ok d' /\ dinv d' (absStep cmp id a o) /\ winv cmp (d_om d').
Proof.
  intros d a o D W G. destruct o as [k v|k|n| |k v| |n]; cbn [dstep].
  - destruct (a_map a (id k)) as [[[p k0] v0]|] eqn:E.
    + destruct (dset_hit d a k v p k0 v0 D E) as (d' & A & B & _ & C). rewrite A. cbn [bind]. exists d'. split; auto. split; auto.
      rewrite B. apply oset_spec; auto.
    + destruct (dset_miss d a k v D E) as (d' & A & B & C). rewrite A. cbn [bind]. exists d'. split; auto. split; auto.
      rewrite B. apply oset_spec; auto.
  - destruct (ddelkey_spec d a k D) as (next & d' & A & (n2 & B) & _ & C). rewrite A. cbn [bind]. exists d'. split; auto. split; auto.
    destruct (ostep_spec cmp OK (d_om d) (ODel (id k)) W) as (s' & X & Y & _). cbn [ostep] in X. rewrite B in X. cbn [bind] in X. congruence.
  - unfold nthIter. cbn [absStep]. cbn [opOK goodIters] in G. unfold opOK in G. cbn [goodIters] in G. destruct G as [G _].
    pose proof (di_objs d a D) as O. rewrite O in *. rewrite nth_error_map in *.
    destruct (nth_error (o_heap (d_om d)) n) as [[k v]|] eqn:X; cbn [option_map fst ddeleteWithIter].
    2:{ cbn [bind]. exists d. auto. }
    rewrite (idx_entry d a _ D). cbn [option_map fst] in G. destruct (a_map a (id k)) as [[[p k0] v0]|] eqn:E.
    + subst p. rewrite (di_map d a D) in E. apply entry_some in E; [|apply D]. destruct E as [J _].
      destruct (dinv_delete d a _ _ D J) as (next & s' & A & B & C & F & Q). rewrite A. cbn [bind].
      eexists. split; [reflexivity|]. rewrite <- C. rewrite <- O. split; [exact Q|]. cbn [d_om].
      destruct (ostep_spec cmp OK (d_om d) (ODel (id k)) W) as (s2 & Y1 & Y2 & _). cbn [ostep] in Y1. rewrite B in Y1. cbn [bind] in Y1. congruence.
    + cbn [bind]. exists d. split; auto. split; auto. rewrite <- O. apply upd_none; auto.
  - eexists. split; [reflexivity|]. split; [|apply deleteAll_spec; auto]. unfold ddeleteAll, deleteAll.
    destruct (deleteAll_spec cmp (d_om d) W) as [W' _].
    constructor; cbn [d_om d_idx o_tree o_heap absStep a_objs a_map]; auto; try apply D; try contradiction.
    eapply strip_winv; eauto.
  - destruct (dpoke_spec d a k v D) as (d' & A & B). exists d'. split; auto. split; auto.
    unfold dpoke in A. rename W into W0. pose proof (dgetikv cmp id d k) as _.
    destruct (dgetikv cmp id d k) as [p|]; [|congruence]. destruct (nth_error (o_heap (d_om d)) p) as [[k0 v0]|] eqn:X; [|discriminate].
    injection A as <-. cbn [d_om]. destruct W0 as [W1 W2 W3 W4]. constructor; cbn [o_tree o_heap o_ver o_cache o_cver]; auto.
    rewrite hset_len. auto.
  - destruct (cached_spec cmp (d_om d) W) as (A & B & C & E & F). unfold dcached. destruct (cached (d_om d)) as [l s'].
    cbn [fst snd] in *. eexists. split; [reflexivity|]. cbn [snd d_om absStep]. split; auto. apply dinv_omap; auto.
  - destruct (dall_look n d a D W) as (u & d' & l & A & _ & B & C). rewrite A. cbn [bind absStep]. exists d'. auto.
Qed.

Lemma drun_spec : forall ops d a, dinv d a -> winv cmp (d_om d) -> goodIters cmp id a ops ->
  exists d', run_res (dstep cmp id) d ops = Ok d' /\ dinv d' (fold_left (absStep cmp id) ops a) /\ winv cmp (d_om d').
Proof.
  induction ops as [|o ops IH]; intros d a D W G; [exists d; auto|]. destruct G as [G1 G2].
  destruct (dstep_spec d a o D W (conj G1 I)) as (d1 & A & B & C). cbn [run_res]. rewrite A. cbn [bind].
  apply IH; auto.
Qed.

(** ** Ranges whose bodies set or delete the current key *)
Definition trAct (k : Obj) (x : act V) : oop Id (Obj * V) :=
  match x with ASet v => OSet (id k) (k, v) | ADel => ODel (id k) end.
Definition trDec (dec : nat -> Obj -> V -> list (act V) * bool) (i : nat) (_ : Id) (kv : Obj * V) : list (oop Id (Obj * V)) * bool :=
  (map (trAct (fst kv)) (fst (dec i (fst kv) (snd kv))), snd (dec i (fst kv) (snd kv))).

Lemma acts_sim : forall k acts d a, dinv d a ->
  (forall p k0 v0, a_map a (id k) = Some (p, k0, v0) -> k0 = k) ->
  exists d', run_res (dstep cmp id) d (map (actOp k) acts) = Ok d' /\
    run_res (ostep cmp) (d_om d) (map (trAct k) acts) = Ok (d_om d') /\
    dinv d' (fold_left (absStep cmp id) (map (actOp k) acts) a) /\
    exists more, a_objs (fold_left (absStep cmp id) (map (actOp k) acts) a) = a_objs a ++ more.
Proof.
  induction acts as [|x acts IH]; intros d a D U.
  - exists d. simpl. split; auto. split; auto. split; auto. exists []. rewrite app_nil_r. auto.
  - assert (ST : exists d1, dstep cmp id d (actOp k x) = Ok d1 /\ ostep cmp (d_om d) (trAct k x) = Ok (d_om d1) /\
        dinv d1 (absStep cmp id a (actOp k x)) /\ (exists more, a_objs (absStep cmp id a (actOp k x)) = a_objs a ++ more) /\
        forall p k0 v0, a_map (absStep cmp id a (actOp k x)) (id k) = Some (p, k0, v0) -> k0 = k).
    { destruct x as [v|]; cbn [actOp trAct dstep ostep].
      - destruct (a_map a (id k)) as [[[p k0] v0]|] eqn:E.
        + destruct (dset_hit d a k v p k0 v0 D E) as (d' & A & B & _ & C). rewrite A. cbn [bind].
          assert (k0 = k) by eauto. subst k0. exists d'. split; auto. split; [rewrite B; auto|]. split; auto.
          cbn [absStep]. rewrite E. cbn [a_objs a_map]. split; [exists []; rewrite app_nil_r; auto|].
          unfold upd. rewrite same_refl. congruence.
        + destruct (dset_miss d a k v D E) as (d' & A & B & C). rewrite A. cbn [bind]. exists d'. split; auto.
          split; [rewrite B; auto|]. split; auto. cbn [absStep]. rewrite E. cbn [a_objs a_map]. split; [eauto|].
          unfold upd. rewrite same_refl. congruence.
      - destruct (ddelkey_spec d a k D) as (next & d' & A & (n2 & B) & _ & C). rewrite A, B. cbn [bind]. exists d'.
        split; auto. split; auto. split; auto. cbn [absStep a_objs a_map]. split; [exists []; rewrite app_nil_r; auto|].
        unfold upd. rewrite same_refl. congruence. }
    destruct ST as (d1 & A & B & C & (m1 & M1) & U1). destruct (IH d1 _ C U1) as (d2 & A2 & B2 & C2 & (m2 & M2)).
    exists d2. cbn [map run_res fold_left]. rewrite A, B. cbn [bind]. split; auto. split; auto. split; auto.
    exists (m1 ++ m2). rewrite M2, M1, app_assoc. auto.
Qed.

Lemma trDec_own : forall dec i k v p (d : dmap) a, dinv d a -> In (k, p) (o_tree (d_om d)) -> k = id (fst v) ->
  Forall (own k) (fst (trDec dec i k v)).
Proof.
  intros dec i k [o v] p d a _ _ ->. simpl. apply Forall_forall. intros x I. apply in_map_iff in I.
  destruct I as ([v'|] & <- & _); [left; eexists; reflexivity|right; reflexivity].
Qed.

(** the omap script, restricted so that it only ever touches the current key *)
Definition trDec' (dec : nat -> Obj -> V -> list (act V) * bool) (i : nat) (j : Id) (kv : Obj * V) : list (oop Id (Obj * V)) * bool :=
  (if same cmp j (id (fst kv)) then fst (trDec dec i j kv) else [], snd (trDec dec i j kv)).

Lemma trDec'_own : forall dec i k v, Forall (own k) (fst (trDec' dec i k v)).
Proof.
  intros dec i k v. unfold trDec'. cbn [fst]. destruct (same_spec cmp OK k (id (fst v))) as [->|]; [|constructor].
  simpl. apply Forall_forall. intros x I. apply in_map_iff in I.
  destruct I as ([v'|] & <- & _); [left; eexists; reflexivity|right; reflexivity].
Qed.

Lemma script_sim : forall dec u k v d a p, dinv d a -> In (id k, p) (o_tree (d_om d)) -> nth_error (o_heap (d_om d)) p = Some (k, v) ->
  exists d' c, dscript cmp id dec u k v d = Ok (S u, d', c) /\ script cmp (trDec' dec) u (id k) (k, v) (d_om d) = Ok (S u, d_om d', c) /\
    dinv d' (fold_left (absStep cmp id) (map (actOp k) (fst (dec u k v))) a) /\
    (o_ver (d_om d') = o_ver (d_om d) -> o_tree (d_om d') = o_tree (d_om d)) /\
    exists more, a_objs (fold_left (absStep cmp id) (map (actOp k) (fst (dec u k v))) a) = a_objs a ++ more.
Proof.
  intros dec u k v d a p D J X. destruct (acts_sim k (fst (dec u k v)) d a D) as (d' & A & B & C & M).
  { intros q k0 v0 E. rewrite (di_map d a D), (entry_in _ _ p (di_w d a D) J), X in E. congruence. }
  exists d', (snd (dec u k v)). unfold dscript, script. rewrite A. cbn [bind]. split; auto.
  pose proof (trDec'_own dec u (id k) (k, v)) as OW. unfold trDec', trDec in *. cbn [fst snd] in *. rewrite same_refl in *.
  rewrite B. cbn [bind]. split; auto. split; auto. split; auto.
  destruct (own_run cmp OK (id k) _ (d_om d) OW (di_w d a D)) as (s' & R & _ & _ & _ & V'). rewrite B in R. injection R as <-. auto.
Qed.

Lemma absB_bodies : forall dec l i (a : absmap),
  absB (fun i k v a => fold_left (absStep cmp id) (map (actOp k) (fst (dec i k v))) a) i l a = absBodies cmp id dec i l a.
Proof. induction l as [|[k v] l IH]; intros; simpl; auto. Qed.

Lemma dall_script : forall dec d a l, dinv d a -> winv cmp (d_om d) -> pairs (o_heap (d_om d)) (o_tree (d_om d)) l ->
  exists n d' j, dall (dscript cmp id dec) (dLen d) 0 d = Ok (Some (n, d', firstn j (map snd l))) /\
    dinv d' (absBodies cmp id dec 0 (firstn j (map snd l)) a) /\ winv cmp (d_om d') /\
    ((forall i k v, snd (dec i k v) = true) ->
       firstn j (map snd l) = map snd l \/
       cacheHit (d_om d) = true /\ exists pre k v kv2, map snd l = pre ++ [(k, v)] ++ [kv2] /\
         firstn j (map snd l) = pre ++ [(k, v)] /\ a_map (absBodies cmp id dec 0 (pre ++ [(k, v)]) a) (id k) = None).
Proof.
  intros dec d a l D W PR. rewrite (dLen_len d a D).
  assert (AL : allLicensed (trDec' dec)).
  { intros i k v. eapply Forall_impl; [|apply trDec'_own]. intros o [(v' & ->)| ->]; reflexivity. }
  assert (IDS : forall x, In x l -> fst x = id (fst (snd x))).
  { intros [k [o v]] I. apply (pairs_enum cmp OK _ l W PR) in I. apply (look_some cmp OK) in I; auto. destruct I as (p & J & N).
    destruct (di_ids d a D _ _ J) as (k2 & v2 & X & Y). rewrite N in X. injection X as <- <-. auto. }
  assert (G : exists i' s' sn j, all (script cmp (trDec' dec)) (Len (d_om d)) 0 (d_om d) = Ok (Some (i', s', sn)) /\
    winv cmp s' /\ bodiesRun cmp (trDec' dec) 0 sn (d_om d) s' /\ map fst sn = firstn j (map fst (o_tree (d_om d))) /\
    (goesOn (trDec' dec) -> map fst sn = map fst (o_tree (d_om d)) \/
       (cacheHit (d_om d) = true /\ exists k v l0 k2, sn = l0 ++ [(k, v)] /\ map fst sn ++ [k2] = map fst (o_tree (d_om d)) /\ look cmp s' k = None))).
  { destruct (cacheHit (d_om d)) eqn:CH.
    - destruct (all_script_hot cmp OK (trDec' dec) (Len (d_om d)) (d_om d) AL W CH (le_n _)) as (i' & s' & sn & j & A & B & C & E & F).
      exists i', s', sn, j. split; auto. split; auto. split; auto. split; auto. intros X. destruct (F X); auto.
    - destruct (all_script_cold cmp OK (trDec' dec) (Len (d_om d)) (d_om d) AL W CH (le_n _)) as (i' & s' & sn & j & A & B & C & E & F).
      exists i', s', sn, j. auto 10. }
  destruct G as (i' & s' & sn & j & A & W' & B & F & GO).
  pose proof (own_seen cmp OK (trDec' dec) (d_om d) s' 0 sn l j (trDec'_own dec) W B F PR) as SE.
  destruct (all_sim _ _ _ (script_sim dec) _ _ _ _ _ _ _ D W A) as (d' & R & E & D').
  rewrite absB_bodies in D'. rewrite SE, <- firstn_map in R, D'. exists i', d', j. split; auto. split; auto.
  split; [rewrite E; auto|]. intros ON. pose proof (pairs_keys _ _ _ PR) as KE.
  destruct (GO (fun i k v => ON i (fst v) (snd v))) as [X|(CH & k & v & l0 & k2 & X1 & X2 & X3)].
  - left. rewrite firstn_map. f_equal. assert (Y : List.length sn = List.length l).
    { rewrite <- (map_length fst sn), X, <- KE, map_length. auto. }
    rewrite SE in Y. rewrite firstn_length in Y. apply firstn_all2. lia.
  - right. split; auto. rewrite firstn_map, <- SE.
    assert (Y : List.length l = S (List.length sn)).
    { rewrite <- (map_length fst l), KE, <- X2, app_length, map_length. simpl. lia. }
    assert (Z : l = sn ++ skipn j l) by (rewrite SE at 1; rewrite firstn_skipn; auto).
    destruct (skipn j l) as [|kv2 [|? ?]] eqn:SK.
    + rewrite Z, app_nil_r in Y. lia.
    + destruct v as [o w]. exists (map snd l0), o, w, (snd kv2). rewrite Z, X1, !map_app. simpl. rewrite <- app_assoc.
      split; auto. split; auto.
      assert (KO : k = id o). { apply (IDS (k, (o, w))). rewrite Z, X1. apply in_or_app. left. apply in_or_app. simpl. auto. }
      assert (SX : map snd l0 ++ [(o, w)] = firstn j (map snd l)).
      { rewrite firstn_map, <- SE, X1, map_app. auto. }
      rewrite SX, (di_map _ _ D'), E, <- KO. rewrite entry_look in X3. destruct (entry s' k) as [[[? ?] ?]|]; [discriminate|auto].
    + rewrite Z, app_length in Y. simpl in Y. lia.
Qed.

End P.
