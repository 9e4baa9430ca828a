From Coq Require Import List ZArith Lia Bool.
From Verif Require Import Base Cdc_Model Cdc_Spec.
Import ListNotations.
Open Scope nat_scope.

Lemma validate_ok : forall c, validate c = true ->
  64 <= minSize c /\ minSize c < targetSize c /\ targetSize c < maxSize c.
Proof.
  intros c H. unfold validate in H.
  rewrite !andb_true_iff, !negb_true_iff, !orb_false_iff in H.
  destruct H as [[[[A1 A2] A3] [[B1 B2] B3]] [[C1 C2] C3]].
  apply Nat.ltb_ge in B1. apply Nat.leb_gt in B3. apply Nat.leb_gt in C3. lia.
Qed.

(** *** The generic loop *)

Inductive steps (alg : list Z -> res nat) : nat -> list Z -> list nat -> Prop :=
| st_nil : forall off, steps alg off [] []
| st_cons : forall off d c cs, d <> [] -> alg d = Ok c ->
    steps alg (off + c) (skipn c d) cs -> steps alg off d ((off + c) :: cs).

Lemma loop_steps : forall min max alg, good_alg min max alg ->
  forall fuel count off d, length d < fuel ->
  exists cs, cutpoints_loop alg fuel 0 count off d = Ok cs /\ steps alg off d cs.
Proof.
  intros min max alg G. induction fuel as [|f IH]; intros count off d L; [lia|].
  destruct d as [|b d]; [exists []; split; [reflexivity|constructor]|].
  destruct (G (b :: d) ltac:(congruence)) as (c & A & C & CL & _).
  destruct (IH (S count) (off + c) (skipn c (b :: d))) as (cs & E & ST).
  { rewrite skipn_length. cbn [length] in *. lia. }
  exists ((off + c) :: cs). split.
  - cbn [cutpoints_loop]. rewrite A. cbn [bind Nat.ltb Nat.leb andb].
    rewrite E. reflexivity.
  - constructor; auto. congruence.
Qed.

Lemma steps_fun : forall alg off d cs1, steps alg off d cs1 ->
  forall cs2, steps alg off d cs2 -> cs1 = cs2.
Proof.
  induction 1 as [|off d c cs D A S IH]; intros cs2 S2.
  - inversion S2; subst; auto. congruence.
  - inversion S2 as [|o d' c' cs' D' A' S']; subst; [congruence|].
    assert (c' = c) by congruence. subst c'. f_equal. apply IH; auto.
Qed.

Lemma cutpoints_steps : forall min max alg d, good_alg min max alg ->
  exists cs, cutpoints alg 0 d = Ok cs /\ steps alg 0 d cs.
Proof. intros. unfold cutpoints. eapply loop_steps; eauto. Qed.

Lemma steps_facts : forall min max alg, good_alg min max alg ->
  forall off d cs, steps alg off d cs ->
  (forall k, k < length cs -> nth k (off :: cs) 0 < nth k cs 0) /\
  last (off :: cs) 0 = off + length d /\
  (forall k, k < length cs -> nth k cs 0 - nth k (off :: cs) 0 <= max) /\
  (forall k, S k < length cs -> min <= nth k cs 0 - nth k (off :: cs) 0).
Proof.
  intros min max alg G. induction 1 as [|off d c cs D A S IH].
  - repeat split; simpl; intros; lia.
  - destruct (G d D) as (c' & A' & C & CL & CM & CS).
    assert (c' = c) by congruence. subst c'.
    destruct IH as (I1 & I2 & I3 & I4).
    split; [|split; [|split]].
    + intros [|k] K; [simpl; lia|]. cbn [length] in K. apply (I1 k). lia.
    + change (last (off :: off + c :: cs) 0) with (last (off + c :: cs) 0).
      rewrite I2, skipn_length. lia.
    + intros [|k] K; [simpl; lia|]. cbn [length] in K. apply (I3 k). lia.
    + intros [|k] K.
      * cbn [nth]. replace (off + c - off) with c by lia. apply CS.
        destruct cs as [|c2 cs]; [simpl in K; lia|].
        inversion S as [|o d' c' cs' D' A2 S']; subst.
        pose proof (skipn_length c d) as SL.
        destruct (skipn c d) eqn:E; [congruence|]. simpl in SL. lia.
      * cbn [length] in K. apply (I4 k). lia.
Qed.

Lemma pieces_concat : forall cs off d,
  (forall k, k < length cs -> nth k (off :: cs) 0 < nth k cs 0) ->
  last (off :: cs) 0 = off + length d ->
  concat (pieces off cs d) = d.
Proof.
  induction cs as [|c cs IH]; intros off d S L.
  - simpl in *. destruct d; simpl in *; [reflexivity|lia].
  - pose proof (S 0 ltac:(simpl; lia)) as S0. cbn [nth] in S0.
    cbn [pieces concat].
    change (last (off :: c :: cs) 0) with (last (c :: cs) 0) in L.
    assert (c <= off + length d) as LE.
    { rewrite <- L. clear L IH S0. revert c S. induction cs as [|x cs IH]; intros c S.
      - simpl. lia.
      - change (last (c :: x :: cs) 0) with (last (x :: cs) 0).
        pose proof (S 1 ltac:(simpl; lia)) as S1. cbn [nth] in S1.
        etransitivity; [|apply IH].
        + lia.
        + intros [|k] K; [cbn [nth]; pose proof (S 0 ltac:(simpl; lia)) as S0; cbn [nth] in S0; lia|].
          cbn [length] in K. exact (S (Datatypes.S (Datatypes.S k)) ltac:(simpl; lia)). }
    rewrite IH.
    + apply firstn_skipn.
    + intros k K. exact (S (Datatypes.S k) ltac:(simpl; lia)).
    + rewrite L, skipn_length. lia.
Qed.

Lemma generic_partition : forall min max alg d, good_alg min max alg ->
  exists cs, cutpoints alg 0 d = Ok cs /\ tiles (length d) cs /\ sized min max cs /\
             concat (pieces 0 cs d) = d.
Proof.
  intros min max alg d G. destruct (cutpoints_steps min max alg d G) as (cs & E & ST).
  exists cs. destruct (steps_facts min max alg G 0 d cs ST) as (F1 & F2 & F3 & F4).
  split; [exact E|]. split; [split; [exact F1|exact F2]|]. split; [split; [exact F3|exact F4]|].
  apply pieces_concat; auto.
Qed.

(** With a limit, the first [lim] cuts of the unlimited run. *)
Lemma loop_limit : forall min max alg, good_alg min max alg ->
  forall fuel lim count off d, length d < fuel -> count < lim ->
  exists cs, steps alg off d cs /\
    cutpoints_loop alg fuel lim count off d = Ok (firstn (lim - count) cs).
Proof.
  intros min max alg G. induction fuel as [|f IH]; intros lim count off d L C; [lia|].
  destruct d as [|b d].
  - exists []. split; [constructor|]. rewrite firstn_nil. reflexivity.
  - destruct (G (b :: d) ltac:(congruence)) as (c & A & C0 & CL & _).
    assert (length (skipn c (b :: d)) < f) as LF
      by (rewrite skipn_length; cbn [length] in *; lia).
    cbn [cutpoints_loop]. rewrite A. cbn [bind].
    destruct (Nat.ltb_spec 0 lim); [|lia]. cbn [andb].
    destruct (Nat.leb_spec lim (S count)) as [LE|GT].
    + destruct (loop_steps min max alg G f (S count) (off + c) (skipn c (b :: d)) LF) as (cs & E & ST).
      exists ((off + c) :: cs). split; [constructor; auto; congruence|].
      replace (lim - count) with 1 by lia. reflexivity.
    + destruct (IH lim (S count) (off + c) (skipn c (b :: d)) LF GT) as (cs & ST & E).
      exists ((off + c) :: cs). split; [constructor; auto; congruence|].
      rewrite E. cbn [bind].
      replace (lim - count) with (S (lim - S count)) by lia. reflexivity.
Qed.

Lemma generic_limit : forall min max alg lim d, good_alg min max alg -> 0 < lim ->
  exists cs, cutpoints alg 0 d = Ok cs /\ cutpoints alg lim d = Ok (firstn lim cs).
Proof.
  intros min max alg lim d G L.
  destruct (loop_limit min max alg G (S (length d)) lim 0 0 d ltac:(lia) L) as (cs & ST & E).
  destruct (cutpoints_steps min max alg d G) as (cs' & E' & ST').
  assert (cs = cs') by (eapply steps_fun; eauto). subst cs'.
  exists cs. split; [exact E'|]. unfold cutpoints. rewrite E. f_equal. f_equal. lia.
Qed.

(** *** Resynchronisation and locality of the whole cut list *)

Lemma steps_ge : forall alg o d cs, steps alg o d cs -> forall x, In x cs -> o <= x.
Proof.
  induction 1 as [|o d c cs D A S IH]; intros x; simpl; [tauto|].
  intros [<-|I]; [lia|]. specialize (IH x I). lia.
Qed.

Lemma steps_shift : forall alg off d cs, steps alg off d cs ->
  forall o2, steps alg o2 d (map (fun c => o2 + (c - off)) cs).
Proof.
  induction 1 as [|off d c cs D A S IH]; intros o2; [constructor|].
  cbn [map]. replace (o2 + (off + c - off)) with (o2 + c) by lia.
  constructor; auto.
  specialize (IH (o2 + c)).
  replace (map (fun x => o2 + (x - off)) cs) with (map (fun x => o2 + c + (x - (off + c))) cs); auto.
  assert (forall x, In x cs -> off + c <= x) as LB.
  { exact (steps_ge _ _ _ _ S). }
  apply map_ext_in. intros x I. specialize (LB x I). lia.
Qed.

(** At any cut, the rest of the list is the run on the rest of the data. *)
Lemma steps_at : forall alg min max, good_alg min max alg -> forall off d cs, steps alg off d cs ->
  forall p, In (off + p) (off :: cs) ->
  exists cs1 cs2, cs = cs1 ++ cs2 /\ steps alg (off + p) (skipn p d) cs2 /\
    (forall x, In x cs1 -> x <= off + p) /\ (forall x, In x cs2 -> off + p < x).
Proof.
  intros alg min max G. induction 1 as [|off d c cs D A S IH]; intros p I.
  - destruct I as [I|[]]. assert (p = 0) by lia. subst p. exists [], []. simpl.
    split; [auto|]. split; [rewrite Nat.add_0_r; constructor|]. split; simpl; tauto.
  - destruct (G d D) as (c' & A' & C & CL & CM & CS). assert (c' = c) by congruence. subst c'.
    destruct (Nat.eq_dec p 0) as [->|NZ].
    + exists [], (off + c :: cs). split; [auto|].
      split; [rewrite Nat.add_0_r; cbn [skipn]; constructor; auto|].
      split; [simpl; tauto|]. intros x [<-|I2]; [lia|].
      pose proof (steps_ge _ _ _ _ S x I2). lia.
    + destruct I as [I|I]; [lia|].
      assert (off + c <= off + p) as LE.
      { destruct I as [I|I]; [lia|]. pose proof (steps_ge _ _ _ _ S _ I). lia. }
      destruct (IH (p - c)) as (cs1 & cs2 & E & S2 & B1 & B2).
      { replace (off + c + (p - c)) with (off + p) by lia. exact I. }
      exists (off + c :: cs1), cs2. split; [simpl; congruence|].
      replace (off + c + (p - c)) with (off + p) in * by lia.
      rewrite skipn_skipn in S2. replace (p - c + c) with p in S2 by lia.
      split; [exact S2|]. split; [|exact B2].
      intros x [<-|I2]; [lia|auto].
Qed.

Lemma resync : forall min max alg a b s cs1 cs2, good_alg min max alg ->
  cutpoints alg 0 (a ++ s) = Ok cs1 -> cutpoints alg 0 (b ++ s) = Ok cs2 ->
  In (length a) (bounds cs1) -> In (length b) (bounds cs2) ->
  forall x, 0 < x -> In (length a + x) cs1 <-> In (length b + x) cs2.
Proof.
  intros min max alg a b s cs1 cs2 G E1 E2 I1 I2 x X.
  destruct (cutpoints_steps min max alg (a ++ s) G) as (c1 & F1 & S1).
  destruct (cutpoints_steps min max alg (b ++ s) G) as (c2 & F2 & S2).
  assert (c1 = cs1) by congruence. assert (c2 = cs2) by congruence. subst c1 c2. clear F1 F2.
  destruct (steps_at alg min max G 0 _ _ S1 (length a) I1) as (u1 & v1 & -> & T1 & L1 & B1).
  destruct (steps_at alg min max G 0 _ _ S2 (length b) I2) as (u2 & v2 & -> & T2 & L2 & B2).
  rewrite skipn_app, skipn_all, Nat.sub_diag in T1, T2. cbn [skipn app] in T1, T2.
  cbn [Nat.add] in *.
  pose proof (steps_shift _ _ _ _ T1 (length b)) as T1'.
  pose proof (steps_fun _ _ _ _ T1' _ T2) as EV.
  rewrite !in_app_iff. split; intros [I|I].
  - specialize (L1 _ I). lia.
  - right. rewrite <- EV. apply in_map_iff. exists (length a + x). split; [lia|auto].
  - specialize (L2 _ I). lia.
  - right. rewrite <- EV in I. apply in_map_iff in I. destruct I as (y & Y & I).
    specialize (B1 y I). replace (length a + x) with y by lia. auto.
Qed.

Lemma firstn_agree : forall A k m (x y : list A), m <= k -> firstn k x = firstn k y ->
  firstn m x = firstn m y.
Proof.
  intros A k m x y L E.
  replace (firstn m x) with (firstn m (firstn k x)) by (rewrite firstn_firstn; f_equal; lia).
  replace (firstn m y) with (firstn m (firstn k y)) by (rewrite firstn_firstn; f_equal; lia).
  congruence.
Qed.

Lemma firstn_skipn_agree : forall A k c (x y : list A), firstn k x = firstn k y -> c <= k ->
  firstn (k - c) (skipn c x) = firstn (k - c) (skipn c y).
Proof.
  intros A k c x y E L.
  assert (forall z : list A, firstn (k - c) (skipn c z) = skipn c (firstn k z)) as K.
  { intro z. rewrite firstn_skipn_comm. f_equal. f_equal. lia. }
  rewrite !K, E. reflexivity.
Qed.

(** Two inputs that agree on their first [k] bytes have the same cuts as long
    as the chunk starts at least [max] before [k]. *)
Lemma steps_prefix : forall min max alg, good_alg min max alg -> local_alg max alg ->
  forall off d1 cs1, steps alg off d1 cs1 ->
  forall d2 cs2, steps alg off d2 cs2 ->
  forall k, firstn k d1 = firstn k d2 -> k <= length d1 -> k <= length d2 ->
  forall j, j < length cs1 -> nth j (off :: cs1) 0 + max <= off + k ->
  0 < max -> nth j cs1 0 = nth j cs2 0 /\ j < length cs2.
Proof.
  intros min max alg G LO off d1 cs1 S1.
  induction S1 as [|off d1 c cs1 D A S1 IH]; intros d2 cs2 S2 k E K1 K2 j J B M.
  - simpl in J. lia.
  - destruct (G d1 D) as (c' & A' & C & CL & CM & CS). assert (c' = c) by congruence. subst c'.
    assert (max <= k) as MK.
    { destruct j; [simpl in B; lia|].
      assert (off + c <= nth (Datatypes.S j) (off :: off + c :: cs1) 0) as GE.
      { cbn [nth]. destruct j; [lia|]. cbn [length] in J.
        apply (steps_ge _ _ _ _ S1). apply nth_In. lia. }
      lia. }
    assert (alg d2 = Ok c) as A2.
    { rewrite LO, <- (firstn_agree _ k max d1 d2 MK E), <- LO. exact A. }
    inversion S2 as [|o d' c2 cs2' D2 A2' S2']; subst.
    { simpl in K2. lia. }
    assert (c2 = c) by congruence. subst c2.
    destruct j as [|j].
    + cbn [nth length]. split; [reflexivity|lia].
    + cbn [nth length] in *.
      pose proof (firstn_skipn_agree _ k c d1 d2 E ltac:(lia)) as E'.
      assert (nth j cs1 0 = nth j cs2' 0 /\ j < length cs2') as [N L].
      { apply (IH (skipn c d2) cs2' S2' (k - c) E'); rewrite ?skipn_length; lia. }
      split; [exact N|lia].
Qed.

(** *** FastCDC Plakar *)

Lemma plakar_loop_spec : forall gear target n ds i mask fp, n <= i + length ds -> i <= n ->
  exists c, plakar_loop gear target n ds i mask fp = Ok c /\ i <= c <= n.
Proof.
  induction ds as [|b ds IH]; intros i mask fp L I.
  - cbn [plakar_loop length] in *. destruct (Nat.ltb_spec i n); [lia|]. exists n. split; [auto|lia].
  - cbn [plakar_loop length] in *. destruct (Nat.ltb_spec i n) as [LT|GE]; [|exists n; split; [auto|lia]].
    set (m := if i =? target then maskL4 else mask).
    destruct (Z.land (roll gear fp b) m =? 0)%Z.
    + exists i. split; [auto|lia].
    + destruct (IH (S i) m (roll gear fp b)) as (c & E & B); try lia. exists c. split; [auto|lia].
Qed.

Lemma plakar_good : forall gear c, validate c = true -> good_alg (minSize c) (maxSize c) (plakar_next gear c).
Proof.
  intros gear c V d D. apply validate_ok in V. unfold plakar_next, plakar_algorithm.
  assert (0 < length d) by (destruct d; simpl; [congruence|lia]).
  destruct (Nat.leb_spec (length d) (minSize c)) as [LE|GT].
  - exists (length d). repeat split; auto; lia.
  - pose proof (skipn_length (minSize c) d) as SL.
    destruct (Nat.leb_spec (maxSize c) (length d)).
    + destruct (plakar_loop_spec gear (targetSize c) (maxSize c) (skipn (minSize c) d) (minSize c) maskS4 0%Z)
        as (x & E & B); try lia. exists x. repeat split; auto; lia.
    + destruct (Nat.leb_spec (length d) (targetSize c)).
      * destruct (plakar_loop_spec gear (length d) (length d) (skipn (minSize c) d) (minSize c) maskS4 0%Z)
          as (x & E & B); try lia. exists x. repeat split; auto; lia.
      * destruct (plakar_loop_spec gear (targetSize c) (length d) (skipn (minSize c) d) (minSize c) maskS4 0%Z)
          as (x & E & B); try lia. exists x. repeat split; auto; lia.
Qed.

(** The loop only reads up to position [n]. *)
Lemma plakar_loop_firstn : forall gear target n ds i mask fp, n <= i + length ds ->
  plakar_loop gear target n ds i mask fp = plakar_loop gear target n (firstn (n - i) ds) i mask fp.
Proof.
  induction ds as [|b ds IH]; intros i mask fp L.
  - rewrite firstn_nil. reflexivity.
  - cbn [length] in L. destruct (n - i) as [|m] eqn:E.
    + cbn [firstn plakar_loop]. destruct (Nat.ltb_spec i n); [lia|reflexivity].
    + cbn [firstn plakar_loop]. destruct (Nat.ltb_spec i n); [|reflexivity].
      destruct (Z.land _ _ =? 0)%Z; [reflexivity|].
      replace m with (n - S i) by lia. apply IH. lia.
Qed.

Lemma plakar_local : forall gear c, validate c = true -> local_alg (maxSize c) (plakar_next gear c).
Proof.
  intros gear c V d. apply validate_ok in V. unfold plakar_next, plakar_algorithm.
  destruct (Nat.le_gt_cases (maxSize c) (length d)) as [LE|GT].
  - rewrite firstn_length, Nat.min_l by lia.
    destruct (Nat.leb_spec (length d) (minSize c)); [lia|].
    destruct (Nat.leb_spec (maxSize c) (minSize c)); [lia|].
    destruct (Nat.leb_spec (maxSize c) (length d)); [|lia].
    rewrite Nat.leb_refl.
    rewrite plakar_loop_firstn by (rewrite skipn_length; lia).
    rewrite firstn_skipn_comm. do 3 f_equal. lia.
  - rewrite (firstn_all2 (n := maxSize c) d) by lia. reflexivity.
Qed.

(** Runs with different end points and targets agree up to a cut strictly
    before both ends. *)
Lemma plakar_loop_ext : forall gear t1 t2 n1 n2 e ds i mask fp c,
  plakar_loop gear t1 n1 ds i mask fp = Ok c -> c < n1 -> n1 <= n2 ->
  (forall k, i <= k -> k < n1 -> (k =? t1) = (k =? t2)) ->
  plakar_loop gear t2 n2 (ds ++ e) i mask fp = Ok c.
Proof.
  induction ds as [|b ds IH]; intros i mask fp c E C N T.
  - cbn [plakar_loop] in E. destruct (i <? n1); [discriminate|]. injection E as <-. lia.
  - cbn [plakar_loop app] in *. destruct (Nat.ltb_spec i n1) as [LT|GE].
    + destruct (Nat.ltb_spec i n2); [|lia].
      rewrite <- (T i ltac:(lia) LT).
      destruct (Z.land _ _ =? 0)%Z; [exact E|].
      apply IH; auto. intros k K1 K2. apply T; lia.
    + injection E as <-. lia.
Qed.

Lemma plakar_stable : forall gear c, validate c = true -> stable_alg (plakar_next gear c).
Proof.
  intros gear c V d e x E X. apply validate_ok in V. unfold plakar_next, plakar_algorithm in *.
  rewrite app_length.
  destruct (Nat.leb_spec (length d) (minSize c)) as [LE|GT]; [injection E as <-; lia|].
  destruct (Nat.leb_spec (length d + length e) (minSize c)); [lia|].
  rewrite skipn_app. replace (minSize c - length d) with 0 by lia. cbn [skipn].
  destruct (Nat.leb_spec (maxSize c) (length d)) as [ML|MG].
  - destruct (Nat.leb_spec (maxSize c) (length d + length e)); [|lia].
    pose proof (skipn_length (minSize c) d) as SL.
    rewrite plakar_loop_firstn in E by lia.
    rewrite plakar_loop_firstn by (rewrite app_length; lia).
    rewrite firstn_app. replace (maxSize c - minSize c - length (skipn (minSize c) d)) with 0 by lia.
    cbn [firstn]. rewrite app_nil_r. exact E.
  - pose proof (skipn_length (minSize c) d) as SL.
    destruct (Nat.leb_spec (length d) (targetSize c)) as [TL|TG].
    + destruct (Nat.leb_spec (maxSize c) (length d + length e)).
      * apply plakar_loop_ext with (1 := E); try lia.
        intros k K1 K2. transitivity false; [|symmetry]; apply Nat.eqb_neq; lia.
      * destruct (Nat.leb_spec (length d + length e) (targetSize c)).
        -- apply plakar_loop_ext with (1 := E); try lia.
           intros k K1 K2. transitivity false; [|symmetry]; apply Nat.eqb_neq; lia.
        -- apply plakar_loop_ext with (1 := E); try lia.
           intros k K1 K2. transitivity false; [|symmetry]; apply Nat.eqb_neq; lia.
    + destruct (Nat.leb_spec (maxSize c) (length d + length e)).
      * apply plakar_loop_ext with (1 := E); try lia. auto.
      * destruct (Nat.leb_spec (length d + length e) (targetSize c)); [lia|].
        apply plakar_loop_ext with (1 := E); try lia. auto.
Qed.

(** *** FastCDC Stadia *)

Lemma stadia_loop_spec : forall gear thresh ds i rlen rmask hash lo,
  lo <= i -> lo <= rlen <= i + length ds ->
  lo <= stadia_loop gear thresh ds i rlen rmask hash <= i + length ds.
Proof.
  induction ds as [|b ds IH]; intros i rlen rmask hash lo L R; cbn [stadia_loop length] in *.
  - destruct (_ =? 0)%Z; lia.
  - destruct (_ =? 0)%Z.
    + destruct (_ <=? _)%Z; [lia|].
      specialize (IH (S i) i (lower_mask 64 hash maxU64) (roll gear hash b) lo). lia.
    + specialize (IH (S i) rlen rmask (roll gear hash b) lo). lia.
Qed.

Lemma stadia_dv : forall c, validate c = true ->
  (u64 (Z.of_nat (targetSize c) - Z.of_nat (minSize c) + 1) =? 0)%Z = false.
Proof.
  intros c V. pose proof (validate_ok c V) as B. unfold validate in V.
  rewrite !andb_true_iff, !negb_true_iff, !orb_false_iff in V.
  destruct V as [[[[A1 A2] A3] _] _]. unfold overGB, gb in A3. apply Z.ltb_ge in A3.
  unfold u64. rewrite Z.mod_small by (change (2 ^ 64)%Z with 18446744073709551616%Z; lia).
  apply Z.eqb_neq. lia.
Qed.

Lemma stadia_good : forall gear c, validate c = true -> good_alg (minSize c) (maxSize c) (stadia_next gear c).
Proof.
  intros gear c V d D. pose proof (stadia_dv c V) as DV. apply validate_ok in V.
  unfold stadia_next, stadia_algorithm.
  assert (0 < length d) by (destruct d; simpl; [congruence|lia]).
  rewrite Nat.ltb_irrefl, DV.
  destruct (Nat.leb_spec (length d) (minSize c)) as [LE|GT].
  - exists (length d). repeat split; auto; lia.
  - set (n := if maxSize c <=? length d then maxSize c else length d).
    assert (minSize c < n /\ n <= length d /\ n <= maxSize c) as N.
    { unfold n. destruct (Nat.leb_spec (maxSize c) (length d)); lia. }
    eexists. split; [reflexivity|].
    match goal with |- context [stadia_loop ?g ?t ?ds ?i ?r ?m ?h] =>
      pose proof (stadia_loop_spec g t ds i r m h (minSize c)) as B;
      assert (length ds = n - minSize c) as L by (rewrite firstn_length, skipn_length; lia)
    end.
    rewrite L in B. specialize (B ltac:(lia) ltac:(lia)). repeat split; lia.
Qed.

Lemma stadia_local : forall gear c, validate c = true -> local_alg (maxSize c) (stadia_next gear c).
Proof.
  intros gear c V d. pose proof (stadia_dv c V) as DV. apply validate_ok in V.
  unfold stadia_next, stadia_algorithm.
  destruct (Nat.le_gt_cases (maxSize c) (length d)) as [LE|GT].
  - rewrite firstn_length, Nat.min_l by lia.
    rewrite !Nat.ltb_irrefl, DV.
    destruct (Nat.leb_spec (length d) (minSize c)); [lia|].
    destruct (Nat.leb_spec (maxSize c) (minSize c)); [lia|].
    destruct (Nat.leb_spec (maxSize c) (length d)); [|lia].
    rewrite Nat.leb_refl.
    rewrite !firstn_skipn_comm, !firstn_firstn.
    do 2 f_equal.
    + do 2 f_equal. lia.
    + do 3 f_equal. lia.
  - rewrite (firstn_all2 (n := maxSize c) d) by lia. reflexivity.
Qed.

(** *** UltraCDC *)

Lemma ham_table_ok : forall b, (0 <= b < 256)%Z -> ham_lookup b = hamAA b.
Proof.
  intros b B.
  assert (forallb (fun b => (ham_lookup b =? hamAA b)%Z) (map Z.of_nat (seq 0 256)) = true) as F
    by (vm_compute; reflexivity).
  rewrite forallb_forall in F. apply Z.eqb_eq. apply F.
  apply in_map_iff. exists (Z.to_nat b). split; [lia|]. apply in_seq. lia.
Qed.

Lemma ultra_inner_bound : forall mask prs j dist k,
  ultra_inner mask prs j dist = inl k -> j <= k < j + length prs.
Proof.
  induction prs as [|[o b] prs IH]; intros j dist k E; cbn [ultra_inner length] in *; [discriminate|].
  destruct (_ =? 0)%Z.
  - injection E as <-. lia.
  - apply IH in E. lia.
Qed.

Lemma win_length : forall d i, length (win d i) <= 8.
Proof. intros. unfold win. rewrite firstn_length. lia. Qed.

Lemma ultra_loop_spec : forall fuel data n normal i low mask out dist lo,
  lo <= i -> lo <= n ->
  lo <= ultra_loop fuel data n normal i low mask out dist <= n.
Proof.
  induction fuel as [|f IH]; intros data n normal i low mask out dist lo L N; cbn [ultra_loop]; [lia|].
  destruct (Nat.leb_spec (i + 8) n) as [LE|GT]; [|lia].
  destruct (eq_bytes _ _).
  - destruct (_ <=? _); [lia|]. apply IH; lia.
  - destruct (ultra_inner _ _ _ _) as [j|d'] eqn:E.
    + apply ultra_inner_bound in E. rewrite combine_length in E.
      pose proof (win_length data i). pose proof (win_length data (i - 8)). lia.
    + apply IH; lia.
Qed.

(** A cut, when the loop ran to the end without one, is [n]; otherwise it is
    at or after the first scanned window. *)
Lemma ultra_scan_spec : forall data min n normal, min <= n ->
  min <= ultra_scan data min n normal <= n.
Proof. intros. unfold ultra_scan. apply ultra_loop_spec; lia. Qed.

Lemma ultra_good : forall c, validate c = true -> minSize c + 8 <= maxSize c ->
  good_alg (minSize c) (maxSize c) (ultra_next c).
Proof.
  intros c V M d D. apply validate_ok in V. unfold ultra_next, ultra_algorithm.
  assert (0 < length d) by (destruct d; simpl; [congruence|lia]).
  rewrite Nat.ltb_irrefl.
  destruct (Nat.ltb_spec (minSize c) 8); [lia|].
  destruct (Nat.leb_spec (length d) (minSize c + 8)) as [LE|GT].
  - exists (length d). repeat split; auto; lia.
  - destruct (Nat.leb_spec (maxSize c) (length d)).
    + pose proof (ultra_scan_spec d (minSize c) (maxSize c) (targetSize c)).
      eexists. split; [reflexivity|]. repeat split; lia.
    + destruct (Nat.leb_spec (length d) (targetSize c)).
      * pose proof (ultra_scan_spec d (minSize c) (length d) (length d)).
        eexists. split; [reflexivity|]. repeat split; lia.
      * pose proof (ultra_scan_spec d (minSize c) (length d) (targetSize c)).
        eexists. split; [reflexivity|]. repeat split; lia.
Qed.

Lemma win_firstn : forall d n i, i + 8 <= n -> win (firstn n d) i = win d i.
Proof.
  intros d n i L. unfold win. rewrite !firstn_skipn_comm, firstn_firstn.
  f_equal. f_equal. lia.
Qed.

Lemma ultra_loop_firstn : forall fuel data n m normal i low mask out dist, n <= m -> 8 <= i ->
  ultra_loop fuel (firstn m data) n normal i low mask out dist =
  ultra_loop fuel data n normal i low mask out dist.
Proof.
  induction fuel as [|f IH]; intros data n m normal i low mask out dist M I; cbn [ultra_loop]; auto.
  destruct (Nat.leb_spec (i + 8) n); auto.
  rewrite !win_firstn by lia.
  destruct (eq_bytes _ _).
  - destruct (LEST <=? S low); auto. apply IH; lia.
  - destruct (ultra_inner _ _ _ _); auto. apply IH; lia.
Qed.

Lemma ultra_local : forall c, validate c = true -> minSize c + 8 <= maxSize c ->
  local_alg (maxSize c) (ultra_next c).
Proof.
  intros c V M d. apply validate_ok in V. unfold ultra_next, ultra_algorithm.
  destruct (Nat.le_gt_cases (length d) (maxSize c)) as [LE|GT].
  - rewrite (firstn_all2 (n := maxSize c) d) by lia. reflexivity.
  - rewrite firstn_length, Nat.min_l by lia. rewrite !Nat.ltb_irrefl.
    destruct (Nat.ltb_spec (minSize c) 8); [lia|].
    destruct (Nat.leb_spec (length d) (minSize c + 8)); [lia|].
    destruct (Nat.leb_spec (maxSize c) (length d)); [|lia].
    destruct (Nat.leb_spec (maxSize c) (minSize c + 8)) as [L8|G8].
    + assert (maxSize c = minSize c + 8) as E by lia. f_equal.
      unfold ultra_scan. rewrite E.
      destruct (minSize c + 8) eqn:K; [lia|]. cbn [ultra_loop].
      destruct (Nat.leb_spec (S n + 8) (S n)); [lia|reflexivity].
    + rewrite Nat.leb_refl. f_equal. unfold ultra_scan.
      rewrite win_firstn by lia. symmetry. apply ultra_loop_firstn; lia.
Qed.

(** Extending the data does not move a cut strictly before its end. *)
Lemma ultra_loop_ext : forall fuel1 data n1 nm1 i low mask out dist c,
  ultra_loop fuel1 data n1 nm1 i low mask out dist = c -> c < n1 ->
  forall fuel2 e n2 nm2, n1 <= n2 -> n1 <= length data -> fuel1 <= fuel2 -> 8 <= i ->
  (forall k, k + 8 <= n1 -> (nm1 <=? k) = (nm2 <=? k)) ->
  ultra_loop fuel2 (data ++ e) n2 nm2 i low mask out dist = c.
Proof.
  induction fuel1 as [|f1 IH]; intros data n1 nm1 i low mask out dist c E C fuel2 e n2 nm2 N NL F I T;
    cbn [ultra_loop] in E; [lia|].
  destruct fuel2 as [|f2]; [lia|]. cbn [ultra_loop].
  destruct (Nat.leb_spec (i + 8) n1) as [LE|GT]; [|lia].
  destruct (Nat.leb_spec (i + 8) n2) as [LE2|GT2]; [|lia].
  rewrite <- (T i LE).
  assert (forall k, k + 8 <= n1 -> win (data ++ e) k = win data k) as W.
  { intros k K. rewrite <- (win_firstn (data ++ e) (length data) k) by lia.
    rewrite firstn_app, Nat.sub_diag, firstn_all. cbn [firstn]. rewrite app_nil_r. reflexivity. }
  rewrite !W by lia.
  destruct (eq_bytes _ _).
  - destruct (LEST <=? S low); [exact E|]. eapply IH; eauto; lia.
  - destruct (ultra_inner _ _ _ _); [exact E|]. eapply IH; eauto; lia.
Qed.

Lemma win_app : forall data e k, k + 8 <= length data -> win (data ++ e) k = win data k.
Proof.
  intros. rewrite <- (win_firstn (data ++ e) (length data) k) by lia.
  rewrite firstn_app, Nat.sub_diag, firstn_all. cbn [firstn]. rewrite app_nil_r. reflexivity.
Qed.

Lemma ultra_stable : forall c, validate c = true -> minSize c + 8 <= maxSize c ->
  stable_alg (ultra_next c).
Proof.
  intros c V M d e x E X. apply validate_ok in V.
  unfold ultra_next, ultra_algorithm in *.
  rewrite !Nat.ltb_irrefl in *. rewrite app_length.
  destruct (Nat.ltb_spec (minSize c) 8); [lia|].
  destruct (Nat.leb_spec (length d) (minSize c + 8)) as [LE|GT]; [injection E as <-; lia|].
  destruct (Nat.leb_spec (length d + length e) (minSize c + 8)); [lia|].
  assert (forall n1 n2 t1 t2, n1 <= n2 -> n1 <= length d -> ultra_scan d (minSize c) n1 t1 = x -> x < n1 ->
            (forall k, k + 8 <= n1 -> (t1 <=? k) = (t2 <=? k)) ->
            ultra_scan (d ++ e) (minSize c) n2 t2 = x) as K.
  { intros n1 n2 t1 t2 N NL ES XL T. unfold ultra_scan in *. rewrite win_app by lia.
    eapply ultra_loop_ext; eauto; lia. }
  destruct (Nat.leb_spec (maxSize c) (length d)) as [ML|MG].
  - destruct (Nat.leb_spec (maxSize c) (length d + length e)); [|lia].
    destruct (Nat.eq_dec (maxSize c) x) as [EQ|NE].
    + injection E as E. f_equal. rewrite <- E. unfold ultra_scan.
      rewrite win_app by lia.
      rewrite <- (ultra_loop_firstn _ (d ++ e) (maxSize c) (length d)) by lia.
      rewrite firstn_app, Nat.sub_diag, firstn_all. cbn [firstn]. rewrite app_nil_r. reflexivity.
    + injection E as E. pose proof (ultra_scan_spec d (minSize c) (maxSize c) (targetSize c)).
      f_equal. eapply K; [| |exact E| |]; try lia. auto.
  - destruct (Nat.leb_spec (length d) (targetSize c)) as [TL|TG].
    + injection E as E.
      destruct (Nat.leb_spec (maxSize c) (length d + length e));
      [|destruct (Nat.leb_spec (length d + length e) (targetSize c))];
      (f_equal; eapply K; [| |exact E| |]; try lia;
       intros k KL; transitivity false; [|symmetry]; apply Nat.leb_gt; lia).
    + injection E as E.
      destruct (Nat.leb_spec (maxSize c) (length d + length e));
      [|destruct (Nat.leb_spec (length d + length e) (targetSize c)); [lia|]];
      (f_equal; eapply K; [| |exact E| |]; try lia; auto).
Qed.

(** *** FNV *)

Lemma fnv_loop_spec : forall bits min ds i hash,
  i <= fnv_loop bits min ds i hash <= i + length ds /\
  (fnv_loop bits min ds i hash < i + length ds -> min < fnv_loop bits min ds i hash).
Proof.
  induction ds as [|b ds IH]; intros i hash; cbn [fnv_loop length]; [lia|].
  destruct (Nat.leb_spec min i) as [LE|GT]; cbn [andb].
  - destruct (_ =? 0)%Z; [lia|].
    specialize (IH (S i) (u32 (Z.lxor hash b * 16777619))). lia.
  - specialize (IH (S i) (u32 (Z.lxor hash b * 16777619))). lia.
Qed.

Lemma fnv_loop_pos : forall bits min ds hash, ds <> [] -> 0 < fnv_loop bits min ds 0 hash.
Proof.
  intros bits min [|b ds] hash D; [congruence|]. cbn [fnv_loop].
  destruct (_ && _); [lia|].
  pose proof (fnv_loop_spec bits min ds 1 (u32 (Z.lxor hash b * 16777619))). lia.
Qed.

Lemma fnv_good : forall bits c, minSize c < maxSize c ->
  good_alg (minSize c) (maxSize c) (fnv_next bits c).
Proof.
  intros bits c V d D. unfold fnv_next, fnv_algorithm.
  assert (0 < length d) by (destruct d; simpl; [congruence|lia]).
  rewrite Nat.ltb_irrefl.
  destruct (Nat.leb_spec (length d) (minSize c)) as [LE|GT].
  - exists (length d). repeat split; auto; lia.
  - set (n := if maxSize c <=? length d then maxSize c else length d).
    assert (minSize c < n /\ n <= length d /\ n <= maxSize c) as N.
    { unfold n. destruct (Nat.leb_spec (maxSize c) (length d)); lia. }
    eexists. split; [reflexivity|].
    pose proof (fnv_loop_spec bits (minSize c) (firstn n d) 0 2166136261%Z) as B.
    pose proof (fnv_loop_pos bits (minSize c) (firstn n d) 2166136261%Z) as P.
    rewrite firstn_length in B. rewrite Nat.min_l in B by lia.
    assert (firstn n d <> []).
    { destruct d; [congruence|]. destruct n; [lia|]. simpl. congruence. }
    specialize (P ltac:(assumption)). lia.
Qed.

Lemma fnv_local : forall bits c, minSize c < maxSize c -> local_alg (maxSize c) (fnv_next bits c).
Proof.
  intros bits c V d. unfold fnv_next, fnv_algorithm.
  destruct (Nat.le_gt_cases (maxSize c) (length d)) as [LE|GT].
  - rewrite firstn_length, Nat.min_l by lia. rewrite !Nat.ltb_irrefl.
    destruct (Nat.leb_spec (length d) (minSize c)); [lia|].
    destruct (Nat.leb_spec (maxSize c) (minSize c)); [lia|].
    destruct (Nat.leb_spec (maxSize c) (length d)); [|lia].
    rewrite Nat.leb_refl, (firstn_firstn d (maxSize c) (maxSize c)), Nat.min_id. reflexivity.
  - rewrite (firstn_all2 (n := maxSize c) d) by lia. reflexivity.
Qed.

(** *** Rabin-Karp *)

Lemma rk_loop_spec : forall mask min prs i sum multn k,
  rk_loop mask min prs i sum multn = Some k -> i < k <= i + length prs /\ min < k.
Proof.
  induction prs as [|[o b] prs IH]; intros i sum multn k E; cbn [rk_loop length] in *; [discriminate|].
  destruct (Nat.leb_spec min i) as [LE|GT]; cbn [andb] in E.
  - destruct (_ =? 0)%Z; [injection E as <-; lia|]. apply IH in E. lia.
  - apply IH in E. lia.
Qed.

Lemma rk_good : forall window mask c, minSize c < maxSize c ->
  good_alg (minSize c) (maxSize c) (rk_next window mask c).
Proof.
  intros window mask c V d D. unfold rk_next, rk_algorithm.
  assert (0 < length d) by (destruct d; simpl; [congruence|lia]).
  rewrite Nat.ltb_irrefl.
  destruct (Nat.leb_spec (length d) (minSize c)) as [LE|GT].
  - exists (length d). repeat split; auto; lia.
  - set (n := if maxSize c <=? length d then maxSize c else length d).
    assert (minSize c < n /\ n <= length d /\ n <= maxSize c) as N.
    { unfold n. destruct (Nat.leb_spec (maxSize c) (length d)); lia. }
    destruct (rk_init _ _ _) as [sum multn].
    destruct (rk_loop _ _ _ _ _ _) as [k|] eqn:E.
    + apply rk_loop_spec in E. rewrite combine_length, skipn_length, firstn_length in E.
      exists k. repeat split; auto; lia.
    + exists n. repeat split; auto; lia.
Qed.

Lemma rk_local : forall window mask c, minSize c < maxSize c ->
  local_alg (maxSize c) (rk_next window mask c).
Proof.
  intros window mask c V d. unfold rk_next, rk_algorithm.
  destruct (Nat.le_gt_cases (maxSize c) (length d)) as [LE|GT].
  - rewrite firstn_length, Nat.min_l by lia. rewrite !Nat.ltb_irrefl.
    destruct (Nat.leb_spec (length d) (minSize c)); [lia|].
    destruct (Nat.leb_spec (maxSize c) (minSize c)); [lia|].
    destruct (Nat.leb_spec (maxSize c) (length d)); [|lia].
    rewrite Nat.leb_refl, (firstn_firstn d (maxSize c) (maxSize c)), Nat.min_id. reflexivity.
  - rewrite (firstn_all2 (n := maxSize c) d) by lia. reflexivity.
Qed.

(** *** UltraCDC.Cutpoints is the batch loop over NextCut *)

Lemma ultra_small_scan : forall data min n normal, n < min + 16 -> min <= n ->
  ultra_scan data min n normal = n.
Proof.
  intros. unfold ultra_scan. destruct n as [|n]; [reflexivity|]. cbn [ultra_loop].
  destruct (Nat.leb_spec (min + 8 + 8) (S n)); [lia|reflexivity].
Qed.

Lemma ultra_step_eq : forall c d, validate c = true -> minSize c + 8 <= maxSize c ->
  minSize c < length d ->
  let end_ := if length d <? maxSize c then length d else maxSize c in
  let normal := if end_ <=? targetSize c then end_ else targetSize c in
  ultra_next c d = Ok (ultra_scan d (minSize c) end_ normal).
Proof.
  intros c d V M L. apply validate_ok in V. cbn zeta.
  unfold ultra_next, ultra_algorithm. rewrite Nat.ltb_irrefl.
  destruct (Nat.ltb_spec (minSize c) 8); [lia|].
  destruct (Nat.leb_spec (length d) (minSize c + 8)) as [L8|G8].
  - destruct (Nat.ltb_spec (length d) (maxSize c)).
    + rewrite ultra_small_scan by lia. reflexivity.
    + replace (maxSize c) with (length d) by lia. rewrite ultra_small_scan by lia. reflexivity.
  - destruct (Nat.leb_spec (maxSize c) (length d)); destruct (Nat.ltb_spec (length d) (maxSize c)); try lia.
    + destruct (Nat.leb_spec (maxSize c) (targetSize c)); [lia|reflexivity].
    + destruct (Nat.leb_spec (length d) (targetSize c)); reflexivity.
Qed.

Lemma ultra_loop_eq : forall c spare lim, validate c = true -> minSize c + 8 <= maxSize c -> 7 <= spare ->
  forall fuel count off d, d <> [] -> length d < fuel -> (0 < lim -> count < lim) ->
  ultra_cutpoints_loop fuel c spare lim count off d =
  cutpoints_loop (ultra_next c) fuel lim count off d.
Proof.
  intros c spare lim V M SP. pose proof (ultra_good c V M) as G.
  pose proof (validate_ok c V) as B.
  induction fuel as [|f IH]; intros count off d D L CL; [lia|].
  destruct (G d D) as (cut & A & C0 & CLE & CM & CS).
  assert (0 < length d) by (destruct d; simpl; [congruence|lia]).
  assert (cutpoints_loop (ultra_next c) (S f) lim count off d =
    (do cut <- ultra_next c d ;
     if (0 <? lim) && (lim <=? S count) then Ok [off + cut]
     else do rest <- cutpoints_loop (ultra_next c) f lim (S count) (off + cut) (skipn cut d) ;
          Ok ((off + cut) :: rest))) as U by (destruct d; [congruence|reflexivity]).
  rewrite U. clear U. cbn [ultra_cutpoints_loop].
  destruct (Nat.le_gt_cases (length d) (minSize c)) as [LE|GT].
  - destruct (Nat.ltb_spec (length d) (maxSize c)); [|lia].
    destruct (Nat.leb_spec (length d) (minSize c)); [|lia].
    assert (ultra_next c d = Ok (length d)) as AN.
    { unfold ultra_next, ultra_algorithm. rewrite Nat.ltb_irrefl.
      destruct (Nat.ltb_spec (minSize c) 8); [lia|].
      destruct (Nat.leb_spec (length d) (minSize c + 8)); [reflexivity|lia]. }
    rewrite AN. cbn [bind]. destruct (_ && _); [reflexivity|].
    rewrite skipn_all. destruct f; [lia|]. reflexivity.
  - pose proof (ultra_step_eq c d V M GT) as SE. cbn zeta in SE.
    set (end_ := if length d <? maxSize c then length d else maxSize c) in *.
    assert (minSize c < end_) by (unfold end_; destruct (_ <? _); lia).
    destruct (Nat.leb_spec end_ (minSize c)); [lia|].
    destruct (Nat.ltb_spec (length d + spare) (minSize c + 8)); [lia|].
    rewrite SE. cbn [bind]. rewrite SE in A. injection A as A. rewrite A.
    rewrite skipn_length.
    destruct (Nat.eqb_spec (length d - cut) 0) as [Z|NZ]; cbn [orb].
    + destruct (_ && _); [reflexivity|].
      rewrite skipn_all2 by lia. destruct f; [lia|]. reflexivity.
    + destruct (Nat.ltb_spec 0 lim) as [LP|LZ]; cbn [andb].
      * destruct (Nat.leb_spec lim (S count)); [reflexivity|].
        rewrite IH; [reflexivity| | |].
        -- intro E. apply (f_equal (@length Z)) in E. rewrite skipn_length in E. simpl in E. lia.
        -- rewrite skipn_length. lia.
        -- lia.
      * rewrite IH; [reflexivity| | |].
        -- intro E. apply (f_equal (@length Z)) in E. rewrite skipn_length in E. simpl in E. lia.
        -- rewrite skipn_length. lia.
        -- lia.
Qed.

Lemma ultra_cutpoints_eq : forall c spare lim d, validate c = true -> minSize c + 8 <= maxSize c ->
  7 <= spare -> d <> [] ->
  ultra_cutpoints c spare lim d = cutpoints (ultra_next c) lim d.
Proof.
  intros c spare lim d V M SP D. pose proof (validate_ok c V). unfold ultra_cutpoints, cutpoints.
  destruct (Nat.eqb_spec (minSize c) 0); [lia|]. apply ultra_loop_eq; auto; lia.
Qed.

(** *** Padme *)

Lemma len64_pos : forall n, (0 < n < 2 ^ 64)%Z -> len64 n = (Z.log2 n + 1)%Z.
Proof.
  intros n N. unfold len64, u64. rewrite Z.mod_small by lia.
  destruct (Z.eqb_spec n 0); lia.
Qed.

Lemma i64_small : forall x, (- 2 ^ 63 <= x < 2 ^ 63)%Z -> i64 x = x.
Proof. intros. unfold i64. rewrite Z.mod_small; lia. Qed.

Lemma log2_lt : forall x, (0 < x)%Z -> (Z.log2 x < x)%Z.
Proof. intros. apply Z.log2_lt_lin; lia. Qed.

(** The number of low bits cleared. *)
Definition padme_z (n : Z) : Z :=
  (Z.log2 n - if (n =? 1)%Z then 0 else Z.log2 (Z.log2 n) + 1)%Z.

Lemma padme_z_range : forall n, (0 < n < 2 ^ 62)%Z ->
  (0 <= padme_z n)%Z /\ (padme_z n <= 61)%Z /\ (padme_z n <= Z.log2 n)%Z.
Proof.
  intros n N. unfold padme_z.
  assert (Z.log2 n < 62)%Z by (apply Z.log2_lt_pow2; lia).
  pose proof (Z.log2_nonneg n).
  destruct (Z.eqb_spec n 1) as [->|NE].
  - change (Z.log2 1) with 0%Z. lia.
  - assert (1 <= Z.log2 n)%Z by (change 1%Z with (Z.log2 2) at 1; apply Z.log2_le_mono; lia).
    pose proof (log2_lt (Z.log2 n) ltac:(lia)). pose proof (Z.log2_nonneg (Z.log2 n)). lia.
Qed.

Lemma padme_value : forall n, (0 < n < 2 ^ 62)%Z ->
  padme n = Ok (2 ^ padme_z n * ((n + 2 ^ padme_z n - 1) / 2 ^ padme_z n) - n)%Z.
Proof.
  intros n N. pose proof (padme_z_range n N) as R. unfold padme.
  destruct (Z.ltb_spec n 0); [lia|].
  rewrite len64_pos by (split; [lia|]; assert (2 ^ 62 < 2 ^ 64)%Z by reflexivity; lia).
  replace (Z.log2 n + 1 - 1)%Z with (Z.log2 n) by lia.
  assert (Z.log2 n - len64 (Z.log2 n) = padme_z n)%Z as PZ.
  { unfold padme_z. destruct (Z.eqb_spec n 1) as [->|NE]; [reflexivity|].
    assert (1 <= Z.log2 n)%Z by (change 1%Z with (Z.log2 2) at 1; apply Z.log2_le_mono; lia).
    rewrite len64_pos; [lia|]. split; [lia|].
    assert (Z.log2 n < 62)%Z by (apply Z.log2_lt_pow2; lia).
    assert (62 < 2 ^ 64)%Z by reflexivity. lia. }
  rewrite PZ. destruct (Z.ltb_spec (padme_z n) 0); [lia|].
  set (z := padme_z n) in *.
  rewrite Z.shiftl_1_l.
  assert (0 < 2 ^ z)%Z as P0 by (apply Z.pow_pos_nonneg; lia).
  assert (2 ^ z <= 2 ^ 61)%Z as P1 by (apply Z.pow_le_mono_r; lia).
  assert (2 ^ 61 + 2 ^ 62 < 2 ^ 63)%Z as P2 by reflexivity.
  assert (0 < 2 ^ 61)%Z by reflexivity.
  rewrite (i64_small (2 ^ z - 1)) by lia.
  rewrite (i64_small (n + (2 ^ z - 1))) by lia.
  replace (2 ^ z - 1)%Z with (Z.ones z) at 2 by (rewrite Z.ones_equiv; lia).
  rewrite Z.ldiff_ones_r by lia.
  rewrite Z.shiftr_div_pow2, Z.shiftl_mul_pow2 by lia.
  replace (n + (2 ^ z - 1))%Z with (n + 2 ^ z - 1)%Z by lia.
  set (q := ((n + 2 ^ z - 1) / 2 ^ z)%Z).
  assert (2 ^ z * q <= n + 2 ^ z - 1)%Z as Q by (apply Z.mul_div_le; lia).
  assert (0 <= q)%Z by (apply Z.div_pos; lia).
  rewrite i64_small; [f_equal; lia|]. nia.
Qed.
