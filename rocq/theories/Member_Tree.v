(** The argument behind "one leader per term" when the membership changes: pure
    combinatorics of the tree of configurations, without nodes or messages.

    A configuration is identified by how it came about from the founding one:
    the list of elections ([El T l]: leader l of term T stamped its term on it)
    and membership changes ([Rc m]: the members became m), oldest first. *)
From Coq Require Import List Arith Bool Lia.
From Verif Require Import Member_Model Member_Spec.
Import ListNotations.

Lemma meets_sym : forall a b, meets a b -> meets b a.
Proof. intros a b H Q Q' HQ HQ'. destruct (H Q' Q HQ' HQ) as (x & A & B). eauto. Qed.

Lemma meets_refl : forall m, meets m m.
Proof.
  intros m Q Q' (N1 & I1 & L1) (N2 & I2 & L2).
  destruct (existsb (fun x => if in_dec Nat.eq_dec x Q' then true else false) Q) eqn:E.
  - apply existsb_exists in E. destruct E as (x & Hx & H). destruct (in_dec Nat.eq_dec x Q'); [eauto|discriminate].
  - exfalso.
    assert (N : NoDup (Q ++ Q')).
    { clear L1 I1 L2 I2. induction Q as [|x Q IH]; simpl in *; auto.
      apply orb_false_elim in E. destruct E as (E1 & E2). inversion_clear N1. constructor; auto.
      intros Hin. apply in_app_or in Hin. destruct Hin as [Hin|Hin]; [contradiction|].
      destruct (in_dec Nat.eq_dec x Q'); [discriminate|contradiction]. }
    assert (Hl : length (Q ++ Q') <= length m).
    { apply NoDup_incl_length; auto. apply incl_app; auto. }
    rewrite app_length in Hl. lia.
Qed.

Section tree.
Variable root_ver : nat.
Variable root_mem : list nat.

Definition tm1 (t : nat) (e : edge) := match e with El T _ => T | Rc _ => t end.
Definition vr1 (v : nat) (e : edge) := match e with El _ _ => v | Rc _ => S v end.
Definition mm1 (m : list nat) (e : edge) := match e with El _ _ => m | Rc m' => m' end.
Definition tm (p : path) : nat := fold_left tm1 p 0.
Definition vr (p : path) : nat := fold_left vr1 p root_ver.
Definition mm (p : path) : list nat := fold_left mm1 p root_mem.

Lemma tm_app : forall p e, tm (p ++ [e]) = tm1 (tm p) e.
Proof. intros. unfold tm. rewrite fold_left_app. reflexivity. Qed.
Lemma vr_app : forall p e, vr (p ++ [e]) = vr1 (vr p) e.
Proof. intros. unfold vr. rewrite fold_left_app. reflexivity. Qed.
Lemma mm_app : forall p e, mm (p ++ [e]) = mm1 (mm p) e.
Proof. intros. unfold mm. rewrite fold_left_app. reflexivity. Qed.

Definition keyLe (p q : path) : Prop := tm p < tm q \/ (tm p = tm q /\ vr p <= vr q).

Variable known : path -> Prop.
Variable Win : nat -> who -> path -> list nat -> Prop.
Variable Com : path -> list nat -> Prop.

Record treeOk : Prop := {
  t_prefix : forall p e, known (p ++ [e]) -> known p;
  t_el : forall T l p, known (p ++ [El T l]) -> exists Q, Win T l p Q;
  t_rc : forall m p, known (p ++ [Rc m]) -> (exists Q, Com p Q) /\ meets (mm p) m;
  t_one : forall m m' p, known (p ++ [Rc m]) -> known (p ++ [Rc m']) -> m = m';
  t_win : forall T l p Q, Win T l p Q -> known p /\ tm p < T /\ majorityOf (mm p) Q;
  t_com : forall p Q, Com p Q -> known p /\ majorityOf (mm p) Q;
  t_vote : forall T l p Q l' p' Q', Win T l p Q -> Win T l' p' Q' ->
             (exists x, In x Q /\ In x Q') -> l = l';
  t_fun : forall T l p Q p' Q', Win T l p Q -> Win T l p' Q' -> p = p';
  t_ack : forall c Qc T l k Q, Com c Qc -> Win T l k Q -> tm c < T ->
             (exists x, In x Qc /\ In x Q) -> keyLe c k
}.
Hypothesis OK : treeOk.

Lemma known_app : forall s a, known (a ++ s) -> known a.
Proof.
  induction s as [|e s IH] using rev_ind; intros a H; [rewrite app_nil_r in H; auto|].
  rewrite app_assoc in H. apply t_prefix in H; auto.
Qed.

Lemma tm_mono : forall s a, known (a ++ s) -> tm a <= tm (a ++ s).
Proof.
  induction s as [|e s IH] using rev_ind; intros a H; [rewrite app_nil_r; auto|].
  rewrite app_assoc in *. rewrite tm_app. destruct e as [T l|m]; simpl.
  - destruct (t_el OK _ _ _ H) as (Q & W). destruct (t_win OK _ _ _ _ W) as (K & L & _). specialize (IH a K). lia.
  - apply IH. eapply t_prefix; eauto.
Qed.

Lemma vr_mono : forall s a, vr a <= vr (a ++ s).
Proof.
  induction s as [|e s IH] using rev_ind; intros a; [rewrite app_nil_r; auto|].
  rewrite app_assoc, vr_app. specialize (IH a). destruct e; simpl; lia.
Qed.

Lemma tm_el : forall s1 s2 a T l, known (a ++ s1 ++ El T l :: s2) -> tm (a ++ s1) < T /\ T <= tm (a ++ s1 ++ El T l :: s2).
Proof.
  intros s1 s2 a T l H.
  assert (H1 : known ((a ++ s1) ++ [El T l])).
  { apply known_app with (s := s2). rewrite <- !app_assoc. exact H. }
  destruct (t_el OK _ _ _ H1) as (Q & W). destruct (t_win OK _ _ _ _ W) as (_ & L & _). split; auto.
  replace (a ++ s1 ++ El T l :: s2) with (((a ++ s1) ++ [El T l]) ++ s2) in * by (rewrite <- !app_assoc; reflexivity).
  eapply Nat.le_trans; [|apply tm_mono; auto]. rewrite tm_app. simpl. lia.
Qed.

(** Strictly longer means a strictly greater (term, version). *)
Lemma key_strict : forall x s a, known (a ++ x :: s) -> ~ keyLe (a ++ x :: s) a.
Proof.
  intros x s a H [L|(L & L')].
  - pose proof (tm_mono (x :: s) a H). lia.
  - destruct x as [T l|m].
    + destruct (tm_el [] s a T l H) as (A & B). simpl in B. rewrite app_nil_r in A. lia.
    + replace (a ++ Rc m :: s) with ((a ++ [Rc m]) ++ s) in L' by (rewrite <- app_assoc; reflexivity).
      pose proof (vr_mono s (a ++ [Rc m])). rewrite vr_app in H0. simpl in H0. lia.
Qed.

Definition isEl (e : edge) : bool := match e with El _ _ => true | Rc _ => false end.
Definition allEl (s : path) : Prop := forall e, In e s -> isEl e = true.

Lemma allEl_mm : forall s a, allEl s -> mm (a ++ s) = mm a.
Proof.
  induction s as [|e s IH] using rev_ind; intros a H; [rewrite app_nil_r; auto|].
  rewrite app_assoc, mm_app, IH.
  - destruct e; auto. specialize (H (Rc m)). discriminate H. apply in_app_iff; right; left; auto.
  - intros x Hx. apply H. apply in_app_iff; auto.
Qed.

Lemma firstRc : forall s, allEl s \/ exists l1 m l2, s = l1 ++ Rc m :: l2 /\ allEl l1.
Proof.
  induction s as [|e s IH].
  - left. intros x [].
  - destruct e as [T l|m].
    + destruct IH as [IH|(l1 & m & l2 & -> & H)].
      * left. intros x [<-|Hx]; auto.
      * right. exists (El T l :: l1), m, l2. split; auto. intros x [<-|Hx]; auto.
    + right. exists [], m, s. split; auto. intros x [].
Qed.


(** The term of a path that begins with anything and goes on with elections. *)
Lemma tm_oneRc : forall x s a, allEl s ->
  (isEl x = false /\ s = [] /\ tm (a ++ x :: s) = tm a) \/
  exists s1 T l s2, x :: s = s1 ++ El T l :: s2 /\ tm (a ++ x :: s) = T.
Proof.
  intros x s a H. destruct s as [|e s _] using rev_ind.
  - destruct x as [T l|m]; [right|left].
    + exists [], T, l, []. split; auto. rewrite tm_app. reflexivity.
    + rewrite tm_app. auto.
  - right. assert (isEl e = true) by (apply H; apply in_app_iff; right; left; auto).
    destruct e as [T l|m]; [|discriminate]. exists (x :: s), T, l, []. split; auto.
    replace (a ++ x :: s ++ [El T l]) with ((a ++ x :: s) ++ [El T l]) by (rewrite <- app_assoc; reflexivity).
    rewrite tm_app. reflexivity.
Qed.

(** Common prefix. *)
Lemma edge_dec : forall x y : edge, {x = y} + {x <> y}.
Proof. repeat decide equality. Qed.
Lemma lca : forall c k : path, exists a s t, c = a ++ s /\ k = a ++ t /\
  (s = [] \/ t = [] \/ exists x s' y t', s = x :: s' /\ t = y :: t' /\ x <> y).
Proof.
  induction c as [|x c IH]; intros k.
  - exists [], [], k. auto.
  - destruct k as [|y k].
    + exists [], (x :: c), []. auto.
    + destruct (edge_dec x y) as [->|N].
      * destruct (IH k) as (a & s & t & -> & -> & H). exists (y :: a), s, t. auto.
      * exists [], (x :: c), (y :: k). split; auto. split; auto. right. right. eauto 8.
Qed.

Definition prefix (c k : path) : Prop := exists t, k = c ++ t.


(** [oneRc]: the two ends are one membership change apart, at most. *)
Lemma meets_step : forall a x s, known (a ++ x :: s) -> allEl s ->
  meets (mm a) (mm (a ++ x :: s)).
Proof.
  intros a x s K H. replace (a ++ x :: s) with ((a ++ [x]) ++ s) in * by (rewrite <- app_assoc; reflexivity).
  rewrite allEl_mm, mm_app; auto. destruct x as [T l|m]; simpl; [apply meets_refl|].
  apply known_app in K. destruct (t_rc OK _ _ K) as (_ & M). auto.
Qed.

Definition PT (T2 : nat) : Prop := forall c Qc l k Q, Com c Qc -> tm c < T2 -> Win T2 l k Q -> prefix c k.
Definition UT (T2 : nat) : Prop := forall l k Q l' k' Q', Win T2 l k Q -> Win T2 l' k' Q' -> l = l'.

Section induction_step.
Variable T2 : nat.
Hypothesis IHP : forall T, T < T2 -> PT T.
Hypothesis IHU : forall T, T < T2 -> UT T.

(** An election on one branch is not later than a committed configuration
    strictly inside the other. *)
Lemma side : forall a x u y t1 t2 T l Q, x <> y ->
  Com (a ++ x :: u) Q -> known (a ++ y :: t2) -> y :: t2 = t1 ++ El T l :: [] \/ (exists r, y :: t2 = t1 ++ El T l :: r) ->
  T < T2 -> T <= tm (a ++ x :: u).
Proof.
  intros a x u y t1 t2 T l Q N C K E L.
  assert (exists r, y :: t2 = t1 ++ El T l :: r) as (r & E') by (destruct E as [E|E]; eauto).
  destruct (le_lt_dec T (tm (a ++ x :: u))) as [?|G]; auto. exfalso.
  assert (K1 : known ((a ++ t1) ++ [El T l])).
  { apply known_app with (s := r). rewrite <- !app_assoc. simpl. rewrite <- E'. auto. }
  destruct (t_el OK _ _ _ K1) as (Q' & W).
  destruct (IHP T L _ _ _ _ _ C G W) as (w & Ew). rewrite <- app_assoc in Ew. apply app_inv_head in Ew.
  simpl in Ew. destruct t1 as [|z t1]; [discriminate|]. simpl in E'. injection E' as -> _. injection Ew as -> _. congruence.
Qed.

(** No term has an election on both branches. *)
Lemma noSame : forall a x s y t s1 s2 t1 t2 T l l', x <> y ->
  known (a ++ x :: s) -> known (a ++ y :: t) ->
  x :: s = s1 ++ El T l :: s2 -> y :: t = t1 ++ El T l' :: t2 -> T < T2 -> False.
Proof.
  intros a x s y t s1 s2 t1 t2 T l l' N K1 K2 E1 E2 L.
  assert (A1 : known ((a ++ s1) ++ [El T l])).
  { apply known_app with (s := s2). rewrite <- !app_assoc. simpl. rewrite <- E1. auto. }
  assert (A2 : known ((a ++ t1) ++ [El T l'])).
  { apply known_app with (s := t2). rewrite <- !app_assoc. simpl. rewrite <- E2. auto. }
  destruct (t_el OK _ _ _ A1) as (Q1 & W1). destruct (t_el OK _ _ _ A2) as (Q2 & W2).
  assert (l = l') by (eapply IHU; eauto). subst l'.
  pose proof (t_fun OK _ _ _ _ _ _ W1 W2) as Ea. apply app_inv_head in Ea. subst t1.
  destruct s1 as [|z s1]; simpl in *; injection E1 as -> _; injection E2 as -> _; congruence.
Qed.

Lemma notBothRc : forall a x s y t, x <> y -> known (a ++ x :: s) -> known (a ++ y :: t) ->
  isEl x = true \/ isEl y = true.
Proof.
  intros a x s y t N K1 K2. destruct x as [|m]; auto. destruct y as [|m']; auto. exfalso.
  replace (a ++ Rc m :: s) with ((a ++ [Rc m]) ++ s) in K1 by (rewrite <- app_assoc; reflexivity).
  replace (a ++ Rc m' :: t) with ((a ++ [Rc m']) ++ t) in K2 by (rewrite <- app_assoc; reflexivity).
  apply known_app in K1, K2. rewrite (t_one OK _ _ _ K1 K2) in N. congruence.
Qed.

Lemma step_P : PT T2.
Proof.
  intros c Qc l k Q C Lc W.
  destruct (t_com OK _ _ C) as (Kc & _). destruct (t_win OK _ _ _ _ W) as (Kk & Lk & _).
  destruct (lca c k) as (a & s & t & -> & -> & D).
  destruct s as [|x s]; [rewrite app_nil_r; exists t; auto|]. exfalso.
  (* the lowest committed configuration strictly above the fork, on c's side *)
  assert (exists s' Qs, Com (a ++ x :: s') Qs /\ allEl s' /\ tm (a ++ x :: s') < T2 /\ known (a ++ x :: s')) as (u & Qu & Cu & Au & Lu & Ku).
  { destruct (firstRc s) as [H|(l1 & m & l2 & -> & H)].
    - exists s, Qc. auto.
    - assert (K1 : known ((a ++ x :: l1) ++ [Rc m])).
      { apply known_app with (s := l2). rewrite <- !app_assoc. exact Kc. }
      destruct (t_rc OK _ _ K1) as ((Qy & Cy) & _). exists l1, Qy. repeat split; auto.
      + eapply Nat.le_lt_trans; [|exact Lc].
        replace (a ++ x :: l1 ++ Rc m :: l2) with ((a ++ x :: l1) ++ Rc m :: l2) in * by (rewrite <- app_assoc; reflexivity).
        apply tm_mono; auto.
      + eapply t_prefix; eauto. }
  clear C Lc Kc Qc.
  destruct D as [D|[D|(x0 & s' & y & t' & E1 & E2 & N)]]; [discriminate| |].
  - (* k is the fork *)
    subst t. rewrite app_nil_r in *.
    pose proof (meets_step a x u Ku Au) as M. apply meets_sym in M.
    destruct (t_com OK _ _ Cu) as (_ & Mu). destruct (t_win OK _ _ _ _ W) as (_ & _ & Mk).
    pose proof (t_ack OK _ _ _ _ _ _ Cu W Lu (M _ _ Mu Mk)) as Le. apply key_strict in Le; auto.
  - injection E1 as <- E1. subst t.
    assert (LE : forall t1 T l' r, y :: t' = t1 ++ El T l' :: r -> T < T2).
    { intros t1 T l' r E. rewrite E in Kk, Lk. destruct (tm_el t1 r a T l' Kk). lia. }
    assert (I : forall t1 T l' r, y :: t' = t1 ++ El T l' :: r -> T <= tm (a ++ x :: u)).
    { intros t1 T l' r E. eapply side; eauto. }
    destruct (firstRc t') as [At|(v & m & v2 & -> & Av)].
    + (* no committed configuration strictly inside k's side *)
      assert (M : meets (mm (a ++ x :: u)) (mm (a ++ y :: t'))).
      { destruct (notBothRc a x u y t' N Ku Kk) as [Ex|Ey].
        - assert (Eu : mm (a ++ x :: u) = mm a).
          { apply allEl_mm. intros e [<-|He]; auto. }
          rewrite Eu. apply meets_step; auto.
        - assert (Eu : mm (a ++ y :: t') = mm a).
          { apply allEl_mm. intros e [<-|He]; auto. }
          rewrite Eu. apply meets_sym. apply meets_step; auto. }
      destruct (t_com OK _ _ Cu) as (_ & Mu). destruct (t_win OK _ _ _ _ W) as (_ & _ & Mk).
      pose proof (t_ack OK _ _ _ _ _ _ Cu W Lu (M _ _ Mu Mk)) as Le.
      destruct (tm_oneRc y t' a At) as [(Ey & -> & Et)|(t1 & T & l' & r & Et & ET)].
      * (* k is one membership change after the fork *)
        destruct (notBothRc a x u y [] N Ku Kk) as [Ex|Ey']; [|congruence].
        destruct x as [T lx|]; [|discriminate].
        destruct (tm_el [] u a T lx Ku) as (B1 & B2). rewrite app_nil_r in B1. simpl in B2.
        destruct Le as [Le|(Le & _)]; lia.
      * pose proof (I _ _ _ _ Et) as B.
        assert (T = tm (a ++ x :: u)) as ET2 by (destruct Le as [Le|(Le & _)]; lia).
        destruct (tm_oneRc x u a Au) as [(Ex & -> & Exu)|(s1 & T' & lx & r' & Es & ES)].
        -- rewrite Et in Kk. destruct (tm_el t1 r a T l' Kk) as (B1 & _).
           assert (tm a <= tm (a ++ t1)).
           { apply tm_mono. apply known_app with (s := El T l' :: r). rewrite <- app_assoc. auto. }
           lia.
        -- eapply (noSame a x u y t' s1 r' t1 r T lx l'); eauto. rewrite Es. congruence.
    + (* a committed configuration strictly inside k's side *)
      assert (Kv : known ((a ++ y :: v) ++ [Rc m])).
      { apply known_app with (s := v2). rewrite <- !app_assoc. exact Kk. }
      destruct (t_rc OK _ _ Kv) as ((Qv & Cv) & _). apply t_prefix in Kv; auto.
      assert (Lv : tm (a ++ y :: v) < T2).
      { eapply Nat.le_lt_trans; [|exact Lk].
        replace (a ++ y :: v ++ Rc m :: v2) with ((a ++ y :: v) ++ Rc m :: v2) in * by (rewrite <- app_assoc; reflexivity).
        apply tm_mono; auto. }
      assert (I2 : forall s1 T l' r, x :: u = s1 ++ El T l' :: r -> T <= tm (a ++ y :: v)).
      { intros s1 T l' r E. eapply (side a y v x s1 u T l' Qv); eauto.
        rewrite E in Ku, Lu. destruct (tm_el s1 r a T l' Ku). lia. }
      destruct (tm_oneRc x u a Au) as [(Ex & -> & Exu)|(s1 & T & lx & r & Es & ES)].
      * destruct (notBothRc a x [] y v N Ku Kv) as [?|Ey]; [congruence|].
        destruct y as [T lx|]; [|discriminate].
        pose proof (I [] T lx (v ++ Rc m :: v2) eq_refl) as B.
        destruct (tm_el [] v a T lx Kv) as (B1 & _). rewrite app_nil_r in B1. lia.
      * pose proof (I2 _ _ _ _ Es) as B2.
        destruct (tm_oneRc y v a Av) as [(Ey & -> & Eyv)|(t1 & T' & ly & r' & Et & ET)].
        -- rewrite Es in Ku. destruct (tm_el s1 r a T lx Ku) as (B1 & _).
           assert (tm a <= tm (a ++ s1)).
           { apply tm_mono. apply known_app with (s := El T lx :: r). rewrite <- app_assoc. auto. }
           lia.
        -- assert (T' <= tm (a ++ x :: u)).
           { apply (I t1 T' ly (r' ++ Rc m :: v2)). change (y :: v ++ Rc m :: v2) with ((y :: v) ++ Rc m :: v2).
             rewrite Et, <- app_assoc. reflexivity. }
           eapply (noSame a x u y v s1 r t1 r' T lx ly); eauto; [|lia]. rewrite Et. f_equal. f_equal. f_equal. lia.
Qed.

Lemma step_U : UT T2.
Proof.
  intros l k Q l' k' Q' W W'.
  destruct (t_win OK _ _ _ _ W) as (Kk & Lk & Mk). destruct (t_win OK _ _ _ _ W') as (Kk' & Lk' & Mk').
  assert (meets (mm k) (mm k')) as M; [|eapply t_vote; eauto].
  pose proof step_P as P.
  destruct (lca k k') as (a & s & t & -> & -> & D).
  (* beyond the first edge there are only elections *)
  assert (B : forall a x s y t l Q, (y = [] \/ exists z, y = [z] /\ z <> x) -> known (a ++ x :: s) -> tm (a ++ x :: s) < T2 ->
    Win T2 l (a ++ y ++ t) Q -> (y = [] -> t = []) -> allEl s).
  { clear - P OK. intros a x s y t l Q Hy K L W Ht. destruct (firstRc s) as [H|(l1 & m & l2 & -> & H)]; auto. exfalso.
    assert (K1 : known ((a ++ x :: l1) ++ [Rc m])).
    { apply known_app with (s := l2). rewrite <- !app_assoc. exact K. }
    destruct (t_rc OK _ _ K1) as ((Qy & Cy) & _).
    assert (L1 : tm (a ++ x :: l1) < T2).
    { eapply Nat.le_lt_trans; [|exact L].
      replace (a ++ x :: l1 ++ Rc m :: l2) with ((a ++ x :: l1) ++ Rc m :: l2) in * by (rewrite <- app_assoc; reflexivity).
      apply tm_mono; auto. }
    destruct (P _ _ _ _ _ Cy L1 W) as (w & E). rewrite <- app_assoc in E. apply app_inv_head in E.
    destruct Hy as [->|(z & -> & N)].
    - rewrite (Ht eq_refl) in E. discriminate.
    - simpl in E. injection E as -> _. congruence. }
  destruct s as [|x s].
  - rewrite app_nil_r in *. destruct t as [|y t]; [rewrite app_nil_r; apply meets_refl|].
    apply meets_step; auto. eapply (B a y t [] []); eauto. simpl. rewrite app_nil_r. eauto.
  - destruct t as [|y t].
    + rewrite app_nil_r in *. apply meets_sym. apply meets_step; auto. eapply (B a x s [] []); eauto. simpl. rewrite app_nil_r. eauto.
    + destruct D as [D|[D|(x0 & s' & y0 & t' & E1 & E2 & N)]]; [discriminate|discriminate|].
      injection E1 as <- <-. injection E2 as <- <-.
      assert (As : allEl s) by (eapply (B a x s [y] t); eauto; discriminate).
      assert (At : allEl t) by (eapply (B a y t [x] s); eauto; discriminate).
      destruct (notBothRc a x s y t N Kk Kk') as [Ex|Ey].
      * assert (Eu : mm (a ++ x :: s) = mm a) by (apply allEl_mm; intros e [<-|He]; auto).
        rewrite Eu. apply meets_step; auto.
      * assert (Eu : mm (a ++ y :: t) = mm a) by (apply allEl_mm; intros e [<-|He]; auto).
        rewrite Eu. apply meets_sym. apply meets_step; auto.
Qed.
End induction_step.

Lemma tree_both : forall T, PT T /\ UT T.
Proof.
  intros T. induction T as [T IH] using (well_founded_induction lt_wf). split.
  - apply step_P; intros T' L; apply (IH T' L).
  - apply step_U; intros T' L; apply (IH T' L).
Qed.

(** One winner per term. *)
Theorem tree_unique : forall T l k Q l' k' Q', Win T l k Q -> Win T l' k' Q' -> l = l'.
Proof. intros T. apply (tree_both T). Qed.
(** A committed configuration is part of every later winner's history. *)
Theorem tree_committed : forall T c Qc l k Q, Com c Qc -> tm c < T -> Win T l k Q -> prefix c k.
Proof. intros T. apply (tree_both T). Qed.
End tree.

(** The last election of a history. *)
Fixpoint lastEl (p : path) : option (nat * who) :=
  match p with
  | [] => None
  | e :: r => match lastEl r with Some x => Some x | None => match e with El t l => Some (t, l) | Rc _ => None end end
  end.

Lemma lastEl_app : forall p e, lastEl (p ++ [e]) = match e with El t l => Some (t, l) | Rc _ => lastEl p end.
Proof.
  induction p as [|x p IH]; intros e; simpl; [destruct e; auto|].
  rewrite IH. destruct e; auto.
Qed.

Definition allRc (s : path) : Prop := forall e, In e s -> isEl e = false.
Lemma lastEl_split : forall p, match lastEl p with
  | Some (T, l) => exists k rs, p = k ++ El T l :: rs /\ allRc rs
  | None => allRc p end.
Proof.
  induction p as [|x p IH]; simpl; [intros e []|].
  destruct (lastEl p) as [(T, l)|].
  - destruct IH as (k & rs & -> & H). exists (x :: k), rs. auto.
  - destruct x as [T l|m].
    + exists [], p. auto.
    + intros e [<-|He]; auto.
Qed.

Lemma allRc_tm : forall rs k, allRc rs -> tm (k ++ rs) = tm k.
Proof.
  induction rs as [|e rs IH] using rev_ind; intros k H; [rewrite app_nil_r; auto|].
  rewrite app_assoc, tm_app, IH.
  - destruct e; auto. specialize (H (El t l)). discriminate H. apply in_app_iff; right; left; auto.
  - intros x Hx. apply H. apply in_app_iff; auto.
Qed.
Lemma allRc_vr : forall v rs k, allRc rs -> vr v (k ++ rs) = vr v k + length rs.
Proof.
  induction rs as [|e rs IH] using rev_ind; intros k H; [rewrite app_nil_r; simpl; lia|].
  rewrite app_assoc, vr_app, IH, app_length; simpl.
  - destruct e; simpl; [|lia]. specialize (H (El t l)). discriminate H. apply in_app_iff; right; left; auto.
  - intros x Hx. apply H. apply in_app_iff; auto.
Qed.
Lemma lastEl_tm : forall p T l, lastEl p = Some (T, l) -> tm p = T.
Proof.
  intros p T l H. pose proof (lastEl_split p) as S. rewrite H in S. destruct S as (k & rs & -> & A).
  change (El T l :: rs) with ([El T l] ++ rs). rewrite app_assoc, allRc_tm, tm_app; auto.
Qed.

Section keys.
Variable root_ver : nat.
Variable root_mem : list nat.
Variable known : path -> Prop.
Variable Win : nat -> who -> path -> list nat -> Prop.
Variable Com : path -> list nat -> Prop.
Hypothesis OK : treeOk root_ver root_mem known Win Com.
Hypothesis Pos : forall p Q, Com p Q -> 1 <= tm p.

Lemma rcs_eq : forall rs rs' k, allRc rs -> allRc rs' -> known (k ++ rs) -> known (k ++ rs') ->
  length rs = length rs' -> rs = rs'.
Proof.
  induction rs as [|e rs IH] using rev_ind; intros rs' k A A' K K' L.
  - destruct rs'; [auto|discriminate].
  - destruct rs' as [|e' rs' _] using rev_ind; [rewrite app_length in L; simpl in L; lia|].
    rewrite !app_length in L. simpl in L. rewrite !app_assoc in K, K'.
    assert (rs = rs').
    { apply (IH rs' k); try lia.
      - intros x Hx. apply A. apply in_app_iff; auto.
      - intros x Hx. apply A'. apply in_app_iff; auto.
      - eapply t_prefix; eauto.
      - eapply t_prefix; eauto. }
    subst rs'. f_equal.
    assert (isEl e = false) by (apply A; apply in_app_iff; right; left; auto).
    assert (isEl e' = false) by (apply A'; apply in_app_iff; right; left; auto).
    destruct e as [|m]; [discriminate|]. destruct e' as [|m']; [discriminate|].
    rewrite (t_one _ _ _ _ _ OK _ _ _ K K'). auto.
Qed.

(** A (term, version) names one configuration. *)
Theorem tree_key : forall p q, known p -> known q -> tm p = tm q -> vr root_ver p = vr root_ver q -> p = q.
Proof.
  intros p q Kp Kq Et Ev.
  assert (Z : forall p, known p -> allRc p -> p = []).
  { intros r K A. destruct r as [|e r]; auto. exfalso. change (e :: r) with ([e] ++ r) in K.
    apply (known_app _ _ _ _ _ OK) in K. specialize (A e (or_introl eq_refl)). destruct e as [|m]; [discriminate|].
    change [Rc m] with ([] ++ [Rc m]) in K. destruct (t_rc _ _ _ _ _ OK _ _ K) as ((Q & C) & _).
    apply Pos in C. unfold tm in C. simpl in C. lia. }
  pose proof (lastEl_split p) as Sp. pose proof (lastEl_split q) as Sq.
  assert (B : forall k T l rs, known (k ++ El T l :: rs) -> allRc rs ->
    tm (k ++ El T l :: rs) = T /\ 0 < T /\ vr root_ver (k ++ El T l :: rs) = vr root_ver k + length rs /\ exists Q, Win T l k Q).
  { intros k T l rs K A. change (El T l :: rs) with ([El T l] ++ rs) in *. rewrite app_assoc in *.
    rewrite allRc_tm, allRc_vr, tm_app, vr_app; auto. simpl.
    apply (known_app _ _ _ _ _ OK) in K. destruct (t_el _ _ _ _ _ OK _ _ _ K) as (Q & W).
    destruct (t_win _ _ _ _ _ OK _ _ _ _ W) as (_ & L & _). repeat split; eauto. lia. }
  destruct (lastEl p) as [(T, l)|]; destruct (lastEl q) as [(T', l')|].
  - destruct Sp as (k & rs & -> & A). destruct Sq as (k' & rs' & -> & A').
    destruct (B _ _ _ _ Kp A) as (B1 & _ & B3 & Q & W). destruct (B _ _ _ _ Kq A') as (B1' & _ & B3' & Q' & W').
    assert (T = T') by lia. subst T'.
    assert (l = l') by (eapply tree_unique; eauto). subst l'.
    assert (k = k') by (eapply t_fun; eauto). subst k'. f_equal. f_equal.
    change (El T l :: rs) with ([El T l] ++ rs) in Kp. change (El T l :: rs') with ([El T l] ++ rs') in Kq.
    rewrite app_assoc in Kp, Kq. eapply rcs_eq; eauto. lia.
  - destruct Sp as (k & rs & -> & A). destruct (B _ _ _ _ Kp A) as (B1 & B2 & _).
    rewrite (Z q Kq Sq) in Et. unfold tm at 2 in Et. simpl in Et. lia.
  - destruct Sq as (k & rs & -> & A). destruct (B _ _ _ _ Kq A) as (B1 & B2 & _).
    rewrite (Z p Kp Sp) in Et. unfold tm at 1 in Et. simpl in Et. lia.
  - rewrite (Z p Kp Sp), (Z q Kq Sq). auto.
Qed.
End keys.
