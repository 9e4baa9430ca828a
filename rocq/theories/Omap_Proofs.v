From Coq Require Import List NArith Arith Lia Bool Sorted.
From Verif Require Import Base Omap_Model Omap_Spec.
Import ListNotations.

Section P.
Context {K V : Type} (cmp : K -> K -> comparison) (OK : ord_ok cmp).
Notation omap := (@omap K V).

Lemma cmp_refl : forall a, cmp a a = Eq.
Proof. intros. apply OK. auto. Qed.
Lemma cmp_gt_lt : forall a b, cmp a b = Gt <-> cmp b a = Lt.
Proof. intros a b. destruct OK as (_ & A & _). rewrite (A a b). destruct (cmp a b); simpl; split; congruence. Qed.
Lemma cmp_trans : forall a b c, cmp a b = Lt -> cmp b c = Lt -> cmp a c = Lt.
Proof. apply OK. Qed.
Lemma cmp_eq : forall a b, cmp a b = Eq -> a = b.
Proof. intros a b. apply OK. Qed.

Lemma same_true : forall a b, same cmp a b = true <-> a = b.
Proof. intros a b. unfold same. destruct (cmp a b) eqn:E; split; try congruence; intros; subst; try (apply cmp_eq; auto);
  rewrite cmp_refl in E; discriminate. Qed.
Lemma same_spec : forall a b, reflect (a = b) (same cmp a b).
Proof. intros. apply iff_reflect. symmetry. apply same_true. Qed.

(** ** Sorted node lists *)
Definition nsorted (t : list (node K)) : Prop := increasing cmp (map fst t).

Lemma nsorted_cons : forall n t, nsorted (n :: t) <-> Forall (fun m => cmp (fst n) (fst m) = Lt) t /\ nsorted t.
Proof.
  intros n t. unfold nsorted, increasing. simpl. split.
  - intros H. inversion H; subst. split; auto. rewrite Forall_map in H3. auto.
  - intros [A B]. constructor; auto. rewrite Forall_map. auto.
Qed.

Lemma nsorted_app : forall a b, nsorted (a ++ b) <->
  nsorted a /\ nsorted b /\ (forall x y, In x a -> In y b -> cmp (fst x) (fst y) = Lt).
Proof.
  induction a as [|x a IH]; intros b; simpl.
  - split; [intros H; repeat split; auto; [constructor|contradiction]|tauto].
  - rewrite !nsorted_cons, IH, Forall_app. split.
    + intros [[A B] (C & D & E)]. repeat split; auto. intros u w [<-|I] J; auto.
      rewrite Forall_forall in B. auto.
    + intros ([A C] & D & E). repeat split; auto. apply Forall_forall. auto.
Qed.

Lemma findGE_split : forall t k, nsorted t ->
  exists pre post, t = pre ++ post /\ Forall (fun n => cmp (fst n) k = Lt) pre /\
    Forall (fun n => cmp (fst n) k <> Lt) post /\
    findGE cmp t k = (hd_error post, match post with (k', _) :: _ => same cmp k' k | [] => false end).
Proof.
  induction t as [|[k' p] t IH]; intros k S.
  - exists [], []. repeat split; constructor.
  - apply nsorted_cons in S. destruct S as [F S]. simpl. destruct (cmp k' k) eqn:E.
    + exists [], ((k', p) :: t). repeat split; auto.
      * constructor; simpl; [congruence|]. apply cmp_eq in E. subst k'. eapply Forall_impl; [|exact F].
        simpl. intros n H C. apply cmp_gt_lt in H. congruence.
      * simpl. unfold same. rewrite E. auto.
    + destruct (IH k S) as (pre & post & -> & A & B & C). exists ((k', p) :: pre), post. repeat split; auto.
    + exists [], ((k', p) :: t). repeat split; auto.
      * constructor; simpl; [congruence|]. apply cmp_gt_lt in E. eapply Forall_impl; [|exact F].
        simpl. intros n H C. pose proof (cmp_trans _ _ _ E H) as X. apply cmp_gt_lt in X. congruence.
      * simpl. unfold same. rewrite E. auto.
Qed.

(** Membership: the node of a key. *)
Lemma findGE_found : forall t k k' p, nsorted t -> findGE cmp t k = (Some (k', p), true) ->
  k' = k /\ exists pre post, t = pre ++ (k, p) :: post.
Proof.
  intros t k k' p S H. destruct (findGE_split t k S) as (pre & post & -> & A & B & C). rewrite C in H.
  destruct post as [|[k2 p2] post]; simpl in H; inversion H; subst. apply same_true in H3. subst. split; eauto.
Qed.

Lemma findGE_here : forall pre k p post, nsorted (pre ++ (k, p) :: post) ->
  findGE cmp (pre ++ (k, p) :: post) k = (Some (k, p), true).
Proof.
  induction pre as [|[k' q] pre IH]; intros k p post S; simpl.
  - rewrite cmp_refl. auto.
  - apply nsorted_cons in S. destruct S as [F S]. rewrite Forall_app in F. destruct F as [_ F]. inversion F; subst.
    simpl in *. rewrite H1. auto.
Qed.

Lemma findGE_absent : forall t k it, nsorted t -> findGE cmp t k = (it, false) ->
  (forall p, ~ In (k, p) t) /\
  it = hd_error (filter (fun n => match cmp (fst n) k with Lt => false | _ => true end) t).
Proof.
  intros t k it S H. destruct (findGE_split t k S) as (pre & post & -> & A & B & C). rewrite C in H.
  injection H as H1 H2. subst it. clear C. split.
  - intros p I. apply in_app_or in I. rewrite Forall_forall in A, B. destruct I as [I|I].
    + apply A in I. simpl in I. rewrite cmp_refl in I. discriminate.
    + destruct post as [|[k2 p2] post]; [inversion I|]. destruct I as [I|I].
      * injection I as -> ->. destruct (same_spec k k); congruence.
      * apply nsorted_app in S. destruct S as (_ & S & _). apply nsorted_cons in S. destruct S as [F _].
        rewrite Forall_forall in F. apply F in I. simpl in I. apply (B (k2, p2)); simpl; auto.
  - rewrite filter_app.
    replace (filter _ pre) with (@nil (node K)).
    + simpl. destruct post as [|n post]; auto. simpl. inversion B; subst.
      destruct (cmp (fst n) k); auto. congruence.
    + symmetry. clear - A. induction A as [|n l E _ IH]; auto. simpl. rewrite E. auto.
Qed.

Lemma findGE_in : forall t k p, nsorted t -> In (k, p) t -> findGE cmp t k = (Some (k, p), true).
Proof.
  intros t k p S I. apply in_split in I. destruct I as (pre & post & ->). apply findGE_here; auto.
Qed.

Lemma tInsert_split : forall t k p, nsorted t -> (forall q, ~ In (k, q) t) ->
  exists pre post, t = pre ++ post /\ tInsert cmp t k p = pre ++ (k, p) :: post /\
    nsorted (pre ++ (k, p) :: post).
Proof.
  induction t as [|[k' q] t IH]; intros k p S N.
  - exists [], []. repeat split. apply nsorted_cons. split; auto; constructor.
  - pose proof S as S'. apply nsorted_cons in S. destruct S as [F S]. simpl. destruct (cmp k' k) eqn:E.
    + apply cmp_eq in E. subst. exfalso. apply (N q). simpl. auto.
    + destruct (IH k p S) as (pre & post & -> & T & X); [intros r I; apply (N r); simpl; auto|].
      exists ((k', q) :: pre), post. rewrite T. repeat split; auto. simpl. apply nsorted_cons. split; auto.
      simpl. rewrite Forall_app in *. destruct F. split; auto.
    + exists [], ((k', q) :: t). repeat split; auto. simpl. apply cmp_gt_lt in E. apply nsorted_cons. split; auto. constructor; auto.
      eapply Forall_impl; [|exact F]. simpl. intros. eapply cmp_trans; eauto.
Qed.

Lemma tDelete_split : forall pre (k : K) p post, NoDup (map snd (pre ++ (k, p) :: post)) ->
  tDelete (pre ++ (k, p) :: post) p = pre ++ post.
Proof.
  intros pre k p post N. unfold tDelete. rewrite filter_app. simpl. rewrite Nat.eqb_refl. simpl.
  rewrite map_app in N. simpl in N. apply NoDup_remove_2 in N.
  assert (G : forall l : list (node K), ~ In p (map snd l) -> filter (fun n => negb (Nat.eqb (snd n) p)) l = l).
  { induction l as [|[a b] l IH]; intros M; auto. simpl in *. destruct (Nat.eqb_spec b p); [subst; elim M; auto|].
    simpl. rewrite IH; auto. }
  rewrite !G; auto; intros I; apply N; apply in_or_app; auto.
Qed.

Lemma tNext_split : forall pre (k : K) p post, NoDup (map snd (pre ++ (k, p) :: post)) ->
  tNext (pre ++ (k, p) :: post) p = Ok (hd_error post).
Proof.
  induction pre as [|[k' q] pre IH]; intros k p post N; simpl.
  - rewrite Nat.eqb_refl. auto.
  - inversion N; subst. destruct (Nat.eqb_spec p q).
    + subst. exfalso. apply H1. rewrite map_app. apply in_or_app. simpl. auto.
    + apply IH; auto.
Qed.

Lemma hset_len : forall (h : list V) p v, List.length (hset h p v) = List.length h.
Proof. induction h; intros [|p] v; simpl; auto. Qed.
Lemma hset_nth : forall (h : list V) p q v, p < List.length h ->
  nth_error (hset h p v) q = if Nat.eqb p q then Some v else nth_error h q.
Proof.
  induction h as [|x h IH]; intros [|p] [|q] v L; simpl in *; auto; try lia. apply IH. lia.
Qed.

(** ** The invariant *)
Record winv (s : omap) : Prop := {
  wi_sorted : nsorted (o_tree s);
  wi_nodup : NoDup (map snd (o_tree s));
  wi_heap : Forall (fun n => snd n < List.length (o_heap s)) (o_tree s);
  wi_cache : o_cver s = o_ver s ->
    (exists r, o_tree s = o_cache s ++ r) \/ List.length (o_tree s) < List.length (o_cache s) }.

Definition rd (h : list V) (l : list (node K)) : list (K * option V) :=
  map (fun n => (fst n, nth_error h (snd n))) l.

(** the abstract map *)
Definition look (s : omap) (k : K) : option V :=
  match findGE cmp (o_tree s) k with
  | (Some (_, p), true) => nth_error (o_heap s) p
  | _ => None
  end.

Lemma get2_look : forall s k, winv s -> get2 cmp s k = Ok (look s k).
Proof.
  intros s k W. unfold get2, look. destruct (findGE cmp (o_tree s) k) as [[[k' p]|] []] eqn:E; auto.
  apply findGE_found in E; [|apply W]. destruct E as (-> & pre & post & E).
  pose proof (wi_heap s W) as H. rewrite E, Forall_app in H. destruct H as [_ H]. inversion H; subst.
  simpl in *. destruct (nth_error (o_heap s) p) eqn:N; auto. apply nth_error_None in N. lia.
Qed.

Lemma look_in : forall s k p, winv s -> In (k, p) (o_tree s) -> look s k = nth_error (o_heap s) p.
Proof. intros s k p W I. unfold look. rewrite (findGE_in _ k p (wi_sorted s W) I). auto. Qed.

Lemma look_notin : forall s k, winv s -> (forall p, ~ In (k, p) (o_tree s)) -> look s k = None.
Proof.
  intros s k W N. unfold look. destruct (findGE cmp (o_tree s) k) as [[[k' p]|] []] eqn:E; auto.
  apply findGE_found in E; [|apply W]. destruct E as (-> & pre & post & E). exfalso. apply (N p). rewrite E.
  apply in_or_app. simpl. auto.
Qed.

Lemma look_some : forall s k v, winv s -> look s k = Some v -> exists p, In (k, p) (o_tree s) /\ nth_error (o_heap s) p = Some v.
Proof.
  intros s k v W H. unfold look in H. destruct (findGE cmp (o_tree s) k) as [[[k' p]|] []] eqn:E; try discriminate.
  apply findGE_found in E; [|apply W]. destruct E as (-> & pre & post & E). exists p. rewrite E. split; auto.
  apply in_or_app. simpl. auto.
Qed.

Lemma NoDup_ins : forall (a b : list nat) x, NoDup (a ++ b) -> ~ In x (a ++ b) -> NoDup (a ++ x :: b).
Proof. intros a b x N M. apply (NoDup_Add (Add_app x a b)). auto. Qed.

Lemma key_unique : forall (t : list (node K)) k p q, nsorted t -> In (k, p) t -> In (k, q) t -> p = q.
Proof.
  intros t k p q S I J. pose proof (findGE_in t k p S I). pose proof (findGE_in t k q S J). congruence.
Qed.

(** Effect of each operation on the abstract map, plus preservation. *)
Lemma oset_spec : forall s k v, winv s ->
  winv (snd (oset cmp s k v)) /\
  fst (oset cmp s k v) = (match look s k with Some _ => false | None => true end) /\
  (forall k', look (snd (oset cmp s k v)) k' = if same cmp k k' then Some v else look s k') /\
  o_ver (snd (oset cmp s k v)) = (o_ver s + 1)%N /\
  filter (fun n => negb (same cmp (fst n) k)) (o_tree (snd (oset cmp s k v))) =
  filter (fun n => negb (same cmp (fst n) k)) (o_tree s).
Proof.
  intros s k v W. pose proof W as [S N H C]. unfold oset. destruct (findGE cmp (o_tree s) k) as [it f] eqn:E.
  assert (E' := E).
  destruct f.
  - destruct it as [[k' p]|].
    2:{ exfalso. destruct (findGE_split (o_tree s) k S) as (a & b & _ & _ & _ & X). rewrite X in E. destruct b as [|[? ?] ?]; simpl in E; congruence. }
    apply findGE_found in E; auto. destruct E as (-> & pre & post & E).
    assert (Lp : p < List.length (o_heap s)).
    { rewrite E, Forall_app in H. destruct H as [_ H]. inversion H; subst. auto. }
    cbn [fst snd o_ver]. assert (W' : winv (mkOmap (o_tree s) (hset (o_heap s) p v) (o_ver s + 1) [] 0)).
    { constructor; simpl; auto. - rewrite hset_len. auto. - intros; lia. }
    split; auto. split; [|split; [|split]]; auto.
    + rewrite (look_in s k p W) by (rewrite E; apply in_or_app; simpl; auto).
      destruct (nth_error (o_heap s) p) eqn:X; auto. apply nth_error_None in X. lia.
    + intros k'. destruct (same_spec k k') as [->|NE].
      * rewrite (look_in _ k' p W') by (simpl; rewrite E; apply in_or_app; simpl; auto).
        simpl. rewrite hset_nth by auto. rewrite Nat.eqb_refl. auto.
      * unfold look. cbn [o_tree o_heap]. destruct (findGE cmp (o_tree s) k') as [[[k2 q]|] []] eqn:E2; auto.
        rewrite hset_nth by auto. destruct (Nat.eqb_spec p q); auto. subst q. exfalso.
        apply findGE_found in E2; auto. destruct E2 as (-> & pre2 & post2 & E2).
        assert (I1 : In (k, p) (o_tree s)) by (rewrite E; apply in_or_app; simpl; auto).
        assert (I2 : In (k', p) (o_tree s)) by (rewrite E2; apply in_or_app; simpl; auto).
        clear - N I1 I2 NE. induction (o_tree s) as [|[a b] t IH]; [inversion I1|].
        simpl in *. inversion N; subst. destruct I1 as [I1|I1], I2 as [I2|I2].
        -- congruence.
        -- inversion I1; subst. apply H1. apply (in_map snd) in I2. auto.
        -- inversion I2; subst. apply H1. apply (in_map snd) in I1. auto.
        -- auto.
  - assert (AB : (forall q, ~ In (k, q) (o_tree s))) by (eapply findGE_absent; eauto).
    assert (X : match it with Some (k', p) => fun c : bool => c | None => fun c => c end false = false) by (destruct it as [[? ?]|]; auto).
    replace (match it with Some (_, p) => (true, mkOmap (tInsert cmp (o_tree s) k (List.length (o_heap s))) (o_heap s ++ [v]) (o_ver s + 1) [] 0) | None => (true, mkOmap (tInsert cmp (o_tree s) k (List.length (o_heap s))) (o_heap s ++ [v]) (o_ver s + 1) [] 0) end)
      with (true, mkOmap (tInsert cmp (o_tree s) k (List.length (o_heap s))) (o_heap s ++ [v]) (o_ver s + 1) [] 0) by (destruct it as [[? ?]|]; auto).
    cbn [fst snd o_ver].
    destruct (tInsert_split (o_tree s) k (List.length (o_heap s)) S AB) as (pre & post & E1 & E2 & S2).
    rewrite E2.
    assert (W' : winv (mkOmap (pre ++ (k, List.length (o_heap s)) :: post) (o_heap s ++ [v]) (o_ver s + 1) [] 0)).
    { constructor; simpl; auto.
      - rewrite map_app. simpl. apply NoDup_ins.
        + rewrite E1, map_app in N. auto.
        + rewrite E1 in H. rewrite <- map_app. intros I. apply in_map_iff in I. destruct I as (n & EQ & I).
          rewrite Forall_forall in H. apply H in I. lia.
      - rewrite app_length. simpl. rewrite E1 in H. rewrite Forall_app in *. destruct H as [H1 H2]. split.
        + eapply Forall_impl; [|exact H1]. simpl. intros. lia.
        + constructor; simpl; [lia|]. eapply Forall_impl; [|exact H2]. simpl. intros. lia.
      - intros; lia. }
    split; auto. split; [|split; [|split]]; auto.
    + rewrite look_notin; auto.
    + intros k'. destruct (same_spec k k') as [<-|NE].
      * rewrite (look_in _ k (List.length (o_heap s)) W') by (simpl; apply in_or_app; simpl; auto).
        simpl. rewrite nth_error_app2, Nat.sub_diag by lia. auto.
      * destruct (look s k') as [w|] eqn:L.
        -- apply look_some in L; auto. destruct L as (q & I & L).
           rewrite (look_in _ k' q W').
           2:{ simpl. rewrite E1 in I. apply in_app_or in I. apply in_or_app. simpl. tauto. }
           simpl. rewrite nth_error_app1; auto. apply nth_error_Some. congruence.
        -- apply look_notin; auto. simpl. intros q I. apply in_app_or in I. simpl in I.
           assert (J : In (k', q) (o_tree s)).
           { rewrite E1. apply in_or_app. destruct I as [I|[I|I]]; auto. congruence. }
           rewrite (look_in s k' q W J) in L. apply nth_error_None in L.
           rewrite Forall_forall in H. apply H in J. simpl in J. lia.
    + cbn [o_tree]. rewrite E1, !filter_app. simpl. destruct (same_spec k k); [auto|congruence].
Qed.

Lemma delkey_absent : forall s k, winv s -> look s k = None ->
  delkey cmp s k = Ok (false, hd_error (filter (fun n => match cmp (fst n) k with Lt => false | _ => true end) (o_tree s)), s).
Proof.
  intros s k W L. unfold delkey. destruct (findGE cmp (o_tree s) k) as [it f] eqn:E. destruct f.
  - exfalso. destruct it as [[k' p]|].
    + apply findGE_found in E; [|apply W]. destruct E as (-> & pre & post & E).
      assert (I : In (k, p) (o_tree s)) by (rewrite E; apply in_or_app; simpl; auto).
      rewrite (look_in s k p W I) in L. apply nth_error_None in L.
      pose proof (wi_heap s W) as H. rewrite Forall_forall in H. apply H in I. simpl in I. lia.
    + destruct (findGE_split (o_tree s) k (wi_sorted s W)) as (a & b & _ & _ & _ & X). rewrite X in E.
      destruct b as [|[? ?] ?]; simpl in E; congruence.
  - apply findGE_absent in E; [|apply W]. destruct E as [_ ->]. destruct (hd_error _) as [[? ?]|]; auto.
Qed.

Lemma delkey_present : forall s k v, winv s -> look s k = Some v ->
  exists pre p post s', o_tree s = pre ++ (k, p) :: post /\
    delkey cmp s k = Ok (true, hd_error post, s') /\
    s' = mkOmap (pre ++ post) (o_heap s) (o_ver s + 1) [] 0 /\ winv s' /\
    (forall k', look s' k' = if same cmp k k' then None else look s k').
Proof.
  intros s k v W L. apply look_some in L; auto. destruct L as (p & I & L).
  pose proof (in_split _ _ I) as (pre & post & E). exists pre, p, post. eexists. split; auto.
  unfold delkey. rewrite (findGE_in _ k p (wi_sorted s W) I).
  pose proof W as [S N H C]. rewrite E in N. rewrite E, tNext_split, tDelete_split by auto. cbn [bind].
  split; [reflexivity|]. split; [reflexivity|].
  assert (W' : winv (mkOmap (pre ++ post) (o_heap s) (o_ver s + 1) [] 0)).
  { constructor; simpl.
    - rewrite E in S. apply nsorted_app in S. destruct S as (A & B & D). apply nsorted_cons in B. destruct B.
      apply nsorted_app. repeat split; auto. intros x y X Y. apply D; simpl; auto.
    - rewrite map_app in *. simpl in N. apply NoDup_remove_1 in N. auto.
    - rewrite E, Forall_app in H. destruct H as [H1 H2]. inversion H2; subst. apply Forall_app. auto.
    - intros; lia. }
  split; auto. intros k'. destruct (same_spec k k') as [<-|NE].
  - apply look_notin; auto. simpl. intros q J.
    rewrite E in S. apply nsorted_app in S. destruct S as (A & B & D). apply nsorted_cons in B. destruct B as [B _].
    apply in_app_or in J. destruct J as [J|J].
    + specialize (D (k, q) (k, p) J ltac:(simpl; auto)). simpl in D. rewrite cmp_refl in D. discriminate.
    + rewrite Forall_forall in B. apply B in J. simpl in J. rewrite cmp_refl in J. discriminate.
  - destruct (look s k') as [w|] eqn:L2.
    + apply look_some in L2; auto. destruct L2 as (q & J & L2). rewrite (look_in _ k' q W'); auto.
      simpl. rewrite E in J. apply in_app_or in J. apply in_or_app. simpl in J. destruct J as [J|[J|J]]; auto. congruence.
    + apply look_notin; auto. simpl. intros q J.
      assert (J2 : In (k', q) (o_tree s)) by (rewrite E; apply in_app_or in J; apply in_or_app; simpl; tauto).
      rewrite (look_in s k' q W J2) in L2. apply nth_error_None in L2.
      rewrite Forall_forall in H. apply H in J2. simpl in J2. lia.
Qed.

Lemma poke_spec : forall s k v, winv s ->
  winv (poke cmp s k v) /\ o_tree (poke cmp s k v) = o_tree s /\ o_ver (poke cmp s k v) = o_ver s /\
  (forall k', look (poke cmp s k v) k' =
     if same cmp k k' then match look s k with Some _ => Some v | None => None end else look s k').
Proof.
  intros s k v W. unfold poke. destruct (findGE cmp (o_tree s) k) as [[[k2 p]|] f] eqn:E; [destruct f|].
  - apply findGE_found in E; [|apply W]. destruct E as (-> & pre & post & E).
    assert (I : In (k, p) (o_tree s)) by (rewrite E; apply in_or_app; simpl; auto).
    pose proof W as [S N H C].
    assert (Lp : p < List.length (o_heap s)) by (rewrite Forall_forall in H; apply H in I; auto).
    assert (W' : winv (mkOmap (o_tree s) (hset (o_heap s) p v) (o_ver s) (o_cache s) (o_cver s))).
    { constructor; simpl; auto. rewrite hset_len. auto. }
    repeat split; auto; try apply W'. intros k'. rewrite (look_in s k p W I).
    destruct (nth_error (o_heap s) p) eqn:X; [|apply nth_error_None in X; lia].
    destruct (same_spec k k') as [<-|NE].
    + rewrite (look_in _ k p W' I). simpl. rewrite hset_nth, Nat.eqb_refl by auto. auto.
    + unfold look. cbn [o_tree o_heap]. destruct (findGE cmp (o_tree s) k') as [[[k2 q]|] []] eqn:E2; auto.
      rewrite hset_nth by auto. destruct (Nat.eqb_spec p q); auto. subst q. exfalso.
      apply findGE_found in E2; auto. destruct E2 as (-> & pre2 & post2 & E2).
      assert (I2 : In (k', p) (o_tree s)) by (rewrite E2; apply in_or_app; simpl; auto).
      clear - N I I2 NE. induction (o_tree s) as [|[a b] t IH]; [inversion I|].
      simpl in *. inversion N; subst. destruct I as [I1|I1], I2 as [I2|I2].
      * congruence.
      * inversion I1; subst. apply H1. apply (in_map snd) in I2. auto.
      * inversion I2; subst. apply H1. apply (in_map snd) in I1. auto.
      * auto.
  - repeat split; auto; try apply W. intros k'. destruct (same_spec k k') as [<-|]; auto. unfold look. rewrite E. auto.
  - assert (G : look s k = None) by (unfold look; rewrite E; auto).
    repeat split; auto; try apply W. intros k'. destruct (same_spec k k') as [<-|]; auto. rewrite G. auto.
Qed.

Lemma deleteAll_spec : forall s, winv s -> winv (deleteAll s) /\ forall k, look (deleteAll s) k = None.
Proof.
  intros s W. split; [|intros; reflexivity]. constructor; simpl; try constructor. intros; lia.
Qed.

Lemma cacheHit_tree : forall s, winv s -> cacheHit s = true -> o_cache s = o_tree s.
Proof.
  intros s W H. unfold cacheHit in H. apply andb_prop in H. destruct H as [A B].
  apply Nat.eqb_eq in A. apply N.eqb_eq in B. destruct (wi_cache s W B) as [[r E]|X]; [|lia].
  rewrite E in *. rewrite app_length in A. destruct r; [rewrite app_nil_r; auto|simpl in A; lia].
Qed.

Lemma cached_spec : forall s, winv s ->
  fst (cached s) = o_tree s /\ winv (snd (cached s)) /\ o_tree (snd (cached s)) = o_tree s /\
  o_heap (snd (cached s)) = o_heap s /\ o_ver (snd (cached s)) = o_ver s.
Proof.
  intros s W. unfold cached. destruct (cacheHit s) eqn:H.
  - rewrite (cacheHit_tree s W H). simpl. auto.
  - simpl. repeat split; auto; try apply W. simpl. intros _. left. exists []. rewrite app_nil_r. auto.
Qed.

Lemma look_ext : forall s s', o_tree s' = o_tree s -> o_heap s' = o_heap s -> forall k, look s' k = look s k.
Proof. intros s s' A B k. unfold look. rewrite A, B. auto. Qed.

(** ** Looking ranges *)
Definition pairs (h : list V) (t : list (node K)) (l : list (K * V)) : Prop :=
  Forall2 (fun n kv => fst n = fst kv /\ nth_error h (snd n) = Some (snd kv)) t l.

Lemma pairs_exist : forall h t, Forall (fun n : node K => snd n < List.length h) t -> exists l, pairs h t l.
Proof.
  induction 1 as [|n t L F [l IH]]; [exists []; constructor|].
  destruct (nth_error h (snd n)) as [v|] eqn:E; [|apply nth_error_None in E; lia].
  exists ((fst n, v) :: l). constructor; auto.
Qed.

Lemma cold_look : forall n rest pre l fuel u (s : omap) vers,
  NoDup (map snd (o_tree s)) -> o_tree s = pre ++ rest -> pairs (o_heap s) rest l ->
  o_ver s = vers -> o_cver s = vers -> o_cache s = pre -> List.length rest <= fuel ->
  exists u' s', coldLoop (lookBody n) fuel vers true (hd_error rest) u s =
      Ok (Some (u', s', firstn (Nat.max 1 (n - u)) l)) /\
    o_tree s' = o_tree s /\ o_heap s' = o_heap s /\ o_ver s' = o_ver s /\ o_cver s' = o_ver s /\
    exists r, o_tree s = o_cache s' ++ r.
Proof.
  induction rest as [|[k p] rest IH]; intros pre l fuel u s vers ND T PR VE CV CA FU.
  - inversion PR; subst. rewrite firstn_nil. exists u, s. destruct fuel; simpl; repeat split; auto;
    exists []; rewrite app_nil_r in *; auto.
  - assert (TN : tNext (o_tree s) p = Ok (hd_error rest)) by (rewrite T in ND |- *; apply tNext_split; exact ND).
    inversion PR as [|? [k2 v] ? l2 [E1 E2] PR2]; subst l. simpl in E1, E2. subst k2.
    destruct fuel as [|fuel]; [simpl in FU; lia|]. cbn [coldLoop hd_error].
    rewrite TN. cbn [bind]. unfold deref. cbn [o_heap]. rewrite E2.
    cbn [bind lookBody].
    set (s1 := mkOmap (o_tree s) (o_heap s) (o_ver s) (o_cache s ++ [(k, p)]) (o_cver s)).
    destruct (Nat.ltb_spec (S u) n) as [LT|GE]; cbn [negb].
    + change (o_ver s1) with (o_ver s). rewrite VE, N.eqb_refl. cbn [negb].
      destruct (IH (pre ++ [(k, p)]) l2 fuel (S u) s1 vers) as (u' & s' & R & A & B & C & D & r & F).
      * exact ND.
      * simpl. rewrite <- app_assoc. exact T.
      * auto.
      * auto.
      * simpl; auto.
      * simpl. rewrite CA. reflexivity.
      * simpl in FU. lia.
      * rewrite R. cbn [addOut bind].
        replace (Nat.max 1 (n - u)) with (S (Nat.max 1 (n - S u))) by lia. cbn [firstn].
        exists u', s'. rewrite <- VE. unfold s1 in *. cbn in *. repeat split; auto; try congruence. exists r. exact F.
    + cbn [addOut bind]. replace (Nat.max 1 (n - u)) with 1 by lia. cbn [firstn].
      exists (S u), s1. unfold s1. cbn. repeat split; auto; [congruence|].
      exists rest. rewrite CA, <- app_assoc. exact T.
Qed.

Lemma hot_look : forall n rest pre l fuel u (s : omap) i,
  NoDup (map snd (o_tree s)) -> o_tree s = pre ++ rest -> pairs (o_heap s) rest l ->
  exists u', hotLoop (lookBody n) fuel (o_ver s) rest i (hd_error rest) u s =
      Ok (Some (u', s, firstn (Nat.max 1 (n - u)) l)).
Proof.
  induction rest as [|[k p] rest IH]; intros pre l fuel u s i ND T PR.
  - inversion PR; subst. rewrite firstn_nil. exists u. auto.
  - assert (TN : tNext (o_tree s) p = Ok (hd_error rest)) by (rewrite T in ND |- *; apply tNext_split; exact ND).
    inversion PR as [|? [k2 v] ? l2 [E1 E2] PR2]; subst l. simpl in E1, E2. subst k2.
    cbn [hotLoop hd_error itNext]. rewrite TN. cbn [bind]. unfold deref. rewrite E2.
    cbn [bind lookBody].
    destruct (Nat.ltb_spec (S u) n) as [LT|GE]; cbn [negb].
    + rewrite N.eqb_refl.
      destruct (IH (pre ++ [(k, p)]) l2 fuel (S u) s (S i)) as (u' & R); auto.
      { rewrite <- app_assoc. auto. }
      rewrite R. cbn [addOut bind]. replace (Nat.max 1 (n - u)) with (S (Nat.max 1 (n - S u))) by lia. cbn [firstn]. eauto.
    + cbn [addOut bind]. replace (Nat.max 1 (n - u)) with 1 by lia. cbn [firstn]. eauto.
Qed.

Lemma all_look : forall n fuel s l, winv s -> pairs (o_heap s) (o_tree s) l -> Len s <= fuel ->
  exists u' s', all (lookBody n) fuel 0 s = Ok (Some (u', s', firstn (Nat.max 1 n) l)) /\
    winv s' /\ o_tree s' = o_tree s /\ o_heap s' = o_heap s /\ o_ver s' = o_ver s.
Proof.
  intros n fuel s l W PR FU. unfold all. destruct (cacheHit s) eqn:H.
  - rewrite (cacheHit_tree s W H). unfold tMin.
    destruct (hot_look n (o_tree s) [] l fuel 0 s 0 (wi_nodup s W) eq_refl PR) as (u' & R).
    rewrite Nat.sub_0_r in R. rewrite R. exists u', s. auto.
  - unfold tMin.
    destruct (cold_look n (o_tree s) [] l fuel 0 (mkOmap (o_tree s) (o_heap s) (o_ver s) [] (o_ver s)) (o_ver s))
      as (u' & s' & R & A & B & C & D & r & F); auto; try apply W.
    rewrite Nat.sub_0_r in R. cbn [o_tree] in *. rewrite R. exists u', s'. simpl in *. repeat split; auto.
    + rewrite A. apply W.
    + rewrite A. apply W.
    + rewrite A, B. apply W.
    + intros _. left. rewrite A. eauto.
Qed.

(** ** Histories *)
Lemma ostep_spec : forall s o, winv s -> exists s', ostep cmp s o = Ok s' /\ winv s' /\
  forall older, (forall k, look s k = valueRev cmp older k) -> forall k, look s' k = valueRev cmp (o :: older) k.
Proof.
  intros s o W.
  assert (DK : forall k, exists f it s', delkey cmp s k = Ok (f, it, s') /\ winv s' /\
    forall k', look s' k' = if same cmp k k' then None else look s k').
  { intros k. destruct (look s k) as [v|] eqn:L.
    - destruct (delkey_present s k v W L) as (pre & p & post & s' & _ & D & _ & W' & LK). eauto 8.
    - rewrite (delkey_absent s k W L). do 3 eexists. split; [reflexivity|]. split; auto.
      intros k'. destruct (same_spec k k'); subst; auto. }
  destruct o as [k v|k|k p| |k v| |n]; cbn [ostep].
  - destruct (oset_spec s k v W) as (W' & _ & L & _). eexists. split; [reflexivity|]. split; auto.
    intros older H k'. rewrite L. simpl. rewrite H. auto.
  - destruct (DK k) as (f & it & s' & D & W' & L). rewrite D. cbn [bind]. eexists. split; [reflexivity|]. split; auto.
    intros older H k'. rewrite L. simpl. rewrite H. auto.
  - cbn [deleteWithIter]. destruct (DK k) as (f & it & s' & D & W' & L). rewrite D. cbn [bind]. eexists. split; [reflexivity|]. split; auto.
    intros older H k'. rewrite L. simpl. rewrite H. auto.
  - destruct (deleteAll_spec s W) as [W' L]. eexists. split; [reflexivity|]. split; auto.
  - destruct (poke_spec s k v W) as (W' & _ & _ & L). eexists. split; [reflexivity|]. split; auto.
    intros older H k'. rewrite L. simpl. rewrite <- !H. destruct (same_spec k k'); subst; auto.
  - destruct (cached_spec s W) as (_ & W' & A & B & _). eexists. split; [reflexivity|]. split; auto.
    intros older H k'. rewrite (look_ext s _ A B). simpl. auto.
  - destruct (pairs_exist (o_heap s) (o_tree s) (wi_heap s W)) as [l PR].
    destruct (all_look n (Len s) s l W PR (le_n _)) as (u' & s' & R & W' & A & B & _). rewrite R. cbn [bind].
    eexists. split; [reflexivity|]. split; auto. intros older H k'. rewrite (look_ext s _ A B). simpl. auto.
Qed.

Lemma winv_new : winv (@newOmap K V).
Proof. constructor; simpl; try constructor. exists []. auto. Qed.

Lemma orun_from : forall ops s older, winv s -> (forall k, look s k = valueRev cmp older k) ->
  exists s', run_res (ostep cmp) s ops = Ok s' /\ winv s' /\ forall k, look s' k = valueRev cmp (rev ops ++ older) k.
Proof.
  induction ops as [|o ops IH]; intros s older W H.
  - exists s. auto.
  - destruct (ostep_spec s o W) as (s1 & E & W1 & L). simpl. rewrite E.
    destruct (IH s1 (o :: older) W1 (L older H)) as (s' & R & W' & L'). exists s'. repeat split; auto; try apply W'.
    intros k. rewrite L'. rewrite <- app_assoc. auto.
Qed.

Lemma orun_spec : forall ops, exists s, orun cmp ops = Ok s /\ winv s /\ forall k, look s k = valueAfter cmp ops k.
Proof.
  intros ops. destruct (orun_from ops newOmap [] winv_new) as (s & R & W & L); [reflexivity|].
  exists s. repeat split; auto; try apply W. intros k. rewrite L, app_nil_r. auto.
Qed.

Lemma pairs_enum : forall s l, winv s -> pairs (o_heap s) (o_tree s) l -> enumerates cmp (look s) l.
Proof.
  intros s l W PR. split.
  - assert (E : map fst l = map fst (o_tree s)).
    { clear W. induction PR as [|n kv t l [A _] _ IH]; simpl; congruence. }
    rewrite E. apply W.
  - intros k v. split.
    + intros I. assert (X : exists p, In (k, p) (o_tree s) /\ nth_error (o_heap s) p = Some v).
      { clear W. induction PR as [|[a p] [b w] t l [A B] _ IH]; [inversion I|]. simpl in *. destruct I as [I|I].
        - inversion I; subst. eauto.
        - destruct (IH I) as (q & J & X). eauto. }
      destruct X as (p & J & X). rewrite (look_in s k p W J). auto.
    + intros L. apply look_some in L; auto. destruct L as (p & I & X).
      clear W. induction PR as [|[a q] [b w] t l [A B] _ IH]; [inversion I|]. simpl in *. destruct I as [I|I].
      * inversion I; subst. left. congruence.
      * right. auto.
Qed.

Lemma pairs_rd : forall h t l, pairs h t l -> rd h t = map (fun kv => (fst kv, Some (snd kv))) l.
Proof. induction 1 as [|n kv t l [A B] _ IH]; simpl; congruence. Qed.

Lemma pairs_len : forall h t l, pairs h t l -> List.length t = List.length l.
Proof. induction 1; simpl; auto. Qed.

End P.
