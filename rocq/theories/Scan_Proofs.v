From Coq Require Import List ZArith Lia Bool.
From Verif Require Import Base Cdc_Model Cdc_Spec Cdc_Proofs Sync_Model Sync_Spec Sync_Proofs Scan_Model Scan_Spec.
Import ListNotations.
Open Scope nat_scope.

(** ** Bytes *)

Lemma bytesOf_slice : forall f b e, bytesOf f b e = slice f b e.
Proof. reflexivity. Qed.

Lemma slen : forall f b e, length (slice f b e) = Nat.min (e - b) (length f - b).
Proof. intros. unfold slice. rewrite firstn_length, skipn_length. reflexivity. Qed.

Lemma slice_end : forall f b, slice f b (length f) = skipn b f.
Proof. intros. unfold slice. apply firstn_all2. rewrite skipn_length. lia. Qed.

Lemma slice_sub : forall f b e x y, b <= x -> y <= e -> x <= y ->
  firstn (y - x) (skipn (x - b) (slice f b e)) = slice f x y.
Proof.
  intros f b e x y B E L. unfold slice.
  rewrite skipn_firstn_comm, firstn_firstn, skipn_skipn.
  f_equal; [lia|]. f_equal. lia.
Qed.

Lemma slice_firstn : forall f b e n, b + n <= e -> firstn n (slice f b e) = slice f b (b + n).
Proof.
  intros. unfold slice. rewrite firstn_firstn. f_equal. lia.
Qed.

Lemma slice_skipn : forall f b e n, skipn n (slice f b e) = slice f (b + n) e.
Proof.
  intros. unfold slice. rewrite skipn_firstn_comm, skipn_skipn.
  f_equal; [lia|]. f_equal. lia.
Qed.

Lemma slice_app : forall f a b c, a <= b -> b <= c -> slice f a b ++ slice f b c = slice f a c.
Proof.
  intros f a b c A B.
  rewrite <- (firstn_skipn (b - a) (slice f a c)).
  rewrite slice_firstn by lia. rewrite slice_skipn.
  replace (a + (b - a)) with b by lia. reflexivity.
Qed.

Lemma allZero_iff : forall b, allZero b = true <-> b = zeros (length b).
Proof.
  unfold allZero, zeros. induction b as [|x b IH]; cbn [forallb length repeat]; [tauto|].
  rewrite andb_true_iff. split.
  - intros [A B]. apply Z.eqb_eq in A. rewrite <- A. f_equal. apply IH. auto.
  - intros E. injection E as E1 E2. rewrite E1. split; [reflexivity|]. apply IH. auto.
Qed.

Lemma zeros_app : forall a b, zeros a ++ zeros b = zeros (a + b).
Proof. intros. unfold zeros. symmetry. apply repeat_app. Qed.

(** ** joinZeros *)

Lemma joinZeros_head : forall c cs, exists e, joinZeros (c :: cs) = e :: tl (joinZeros (c :: cs)) /\
  cBeg e = cBeg c /\ (cCry e = Rle0 <-> cCry c = Rle0).
Proof.
  intros c cs. cbn [joinZeros].
  destruct (cCry c) eqn:C; destruct (joinZeros cs) as [|d ds];
    try destruct (cCry d); eexists; cbn; repeat split; eauto; congruence.
Qed.

Lemma joinZeros_consecutive : forall cs off fin, consecutive off cs fin -> consecutive off (joinZeros cs) fin.
Proof.
  induction cs as [|c cs IH]; intros off fin H; [exact H|].
  destruct H as (B & L & H). specialize (IH _ _ H). cbn [joinZeros].
  destruct (cCry c); destruct (joinZeros cs) as [|d ds];
    try (cbn; auto; fail).
  destruct (cCry d); try (cbn; auto; fail).
  destruct IH as (B2 & L2 & IH). cbn. repeat split; auto; lia.
Qed.

Lemma slice_zero_join : forall f a b c, a <= b -> b <= c -> c <= length f ->
  slice f a b = zeros (b - a) -> slice f b c = zeros (c - b) -> slice f a c = zeros (c - a).
Proof.
  intros f a b c A B C E1 E2. rewrite <- (slice_app f a b c) by lia.
  rewrite E1, E2, zeros_app. f_equal. lia.
Qed.

Lemma joinZeros_truthful : forall hsh f cs off, consecutive off cs (length f) ->
  Forall (truthful hsh f) cs -> Forall (truthful hsh f) (joinZeros cs).
Proof.
  induction cs as [|c cs IH]; intros off CO H; [constructor|].
  inversion H as [|x y T F]; subst.
  destruct CO as (B & L & CO). specialize (IH _ CO F).
  assert (CB := joinZeros_consecutive _ _ _ CO). cbn [joinZeros].
  destruct (cCry c) eqn:CC; destruct (joinZeros cs) as [|d ds];
    try (constructor; auto; fail).
  destruct (cCry d) eqn:CD; try (constructor; auto; fail).
  inversion IH as [|x y T2 F2]; subst x y. constructor; [|auto].
  split; [reflexivity|]. cbn [cCry cBeg cEndx].
  destruct T as [_ T]. rewrite CC in T. destruct T2 as [_ T2]. rewrite CD in T2.
  assert (CBB := consecutive_bounds _ _ _ CB). inversion CBB as [|? ? (_ & _ & L3) _]; subst.
  destruct CB as (B2 & L2 & _). unfold cLen in *. cbn [cBeg cEndx]. rewrite B2 in T2.
  apply (slice_zero_join f (cBeg c) (cEndx c) (cEndx d)); auto; lia.
Qed.

Lemma joinZeros_bounded : forall max cs, bounded max cs -> bounded max (joinZeros cs).
Proof.
  unfold bounded. induction cs as [|c cs IH]; intros H; [constructor|].
  inversion H as [|x y T F]; subst. specialize (IH F). cbn [joinZeros].
  destruct (cCry c) eqn:CC; destruct (joinZeros cs) as [|d ds];
    try (constructor; [rewrite ?CC; auto|auto]; fail).
  inversion IH; subst.
  destruct (cCry d) eqn:CD; constructor; rewrite ?CC; auto; cbn; congruence.
Qed.

(** ** Cuts as a fold *)

Fixpoint fc (hsh : list Z -> Z) (f : list Z) (off : nat) (cuts : list nat) (acc : list chunk) : list chunk :=
  match cuts with
  | [] => acc
  | c :: cs => fc hsh f c cs (addChunk hsh (slice f off c) off acc)
  end.

(** Increasing cuts from [off] to [fin]. *)
Fixpoint incr (off : nat) (cuts : list nat) (fin : nat) : Prop :=
  match cuts with
  | [] => off = fin
  | c :: cs => off < c /\ incr c cs fin
  end.

Lemma incr_le : forall cuts off fin, incr off cuts fin -> off <= fin.
Proof.
  induction cuts as [|c cs IH]; cbn; intros off fin H; [lia|].
  destruct H as [A B]. apply IH in B. lia.
Qed.

Lemma steps_incr : forall min max alg, good_alg min max alg -> forall off d cs,
  steps alg off d cs -> incr off cs (off + length d).
Proof.
  intros min max alg G. induction 1 as [|off d c cs D A S IH]; [cbn; lia|].
  destruct (G d D) as (c' & A' & C & CL & _). assert (c' = c) by congruence. subst c'.
  cbn [incr]. split; [lia|]. rewrite skipn_length in IH.
  replace (off + length d) with (off + c + (length d - c)) by lia. exact IH.
Qed.

Lemma labelledAll_consecutive : forall hsh f cuts off fin, incr off cuts fin ->
  consecutive off (labelledAll hsh f off cuts) fin.
Proof.
  induction cuts as [|c cs IH]; intros off fin H; [exact H|].
  destruct H as [A B]. cbn. repeat split; auto.
Qed.

Lemma labelled_truthful : forall hsh f b e, b <= e -> e <= length f -> truthful hsh f (labelled hsh f b e).
Proof.
  intros hsh f b e B E. split; [reflexivity|]. unfold labelled. cbn [cCry cBeg cEndx].
  fold (allZero (slice f b e)). destruct (allZero (slice f b e)) eqn:Z0; [|reflexivity].
  apply allZero_iff in Z0. rewrite Z0, slen. unfold cLen. cbn [cBeg cEndx]. f_equal. lia.
Qed.

Lemma labelledAll_truthful : forall hsh f cuts off fin, incr off cuts fin -> fin <= length f ->
  Forall (truthful hsh f) (labelledAll hsh f off cuts).
Proof.
  induction cuts as [|c cs IH]; intros off fin H L; [constructor|].
  destruct H as [A B]. cbn. constructor; [|eapply IH; eauto].
  apply incr_le in B. apply labelled_truthful; lia.
Qed.

Lemma steps_bounded : forall hsh f min max alg, good_alg min max alg -> forall off d cs,
  steps alg off d cs -> bounded max (labelledAll hsh f off cs).
Proof.
  unfold bounded. intros hsh f min max alg G. induction 1 as [|off d c cs D A S IH]; [constructor|].
  destruct (G d D) as (c' & A' & C & CL & CM & _). assert (c' = c) by congruence. subst c'.
  cbn. constructor; [|exact IH]. intros _. unfold cLen. cbn. lia.
Qed.

Lemma fc_join : forall hsh f cuts off fin acc c, incr off cuts fin -> fin <= length f ->
  cData c = [] -> cEndx c = off ->
  rev (fc hsh f off cuts (c :: acc)) = rev acc ++ joinZeros (c :: labelledAll hsh f off cuts).
Proof.
  induction cuts as [|e cs IH]; intros off fin acc c I L D E.
  - cbn. destruct (cCry c); reflexivity.
  - destruct I as [I1 I2]. cbn [fc labelledAll]. unfold addChunk, labelled.
    fold (allZero (slice f off e)).
    assert (IL := incr_le _ _ _ I2).
    assert (LS : length (slice f off e) = e - off) by (rewrite slen; lia).
    destruct (allZero (slice f off e)) eqn:AZ; rewrite LS.
    + destruct (cCry c) eqn:CC.
      * rewrite (IH _ fin) by (cbn; auto; lia). f_equal.
        replace (cEndx c + (e - off)) with e by lia.
        cbn [joinZeros cCry]. rewrite CC.
        destruct (joinZeros (labelledAll hsh f e cs)) as [|d ds]; [reflexivity|].
        destruct (cCry d) eqn:CD; cbn [cCry cBeg cEndx]; reflexivity.
      * rewrite (IH _ fin) by (cbn; auto; lia). cbn [rev]. rewrite <- app_assoc. f_equal.
        cbn [app]. replace (off + (e - off)) with e by lia.
        set (x := mkChunk off e Rle0 []).
        cbn [joinZeros]. rewrite CC. reflexivity.
      * rewrite (IH _ fin) by (cbn; auto; lia). cbn [rev]. rewrite <- app_assoc. f_equal.
        cbn [app]. replace (off + (e - off)) with e by lia.
        set (x := mkChunk off e Rle0 []).
        cbn [joinZeros]. rewrite CC. reflexivity.
    + rewrite (IH _ fin) by (cbn; auto; lia). cbn [rev]. rewrite <- app_assoc. f_equal.
      cbn [app]. replace (off + (e - off)) with e by lia.
      set (x := mkChunk off e (Hash (hsh (slice f off e))) []).
      change (joinZeros (c :: x :: labelledAll hsh f e cs))
        with (match cCry c, joinZeros (x :: labelledAll hsh f e cs) with
              | Rle0, d :: ds => match cCry d with
                                 | Rle0 => mkChunk (cBeg c) (cEndx d) Rle0 [] :: ds
                                 | _ => c :: d :: ds
                                 end
              | _, r => c :: r
              end).
      assert (J : joinZeros (x :: labelledAll hsh f e cs) = x :: joinZeros (labelledAll hsh f e cs)) by reflexivity.
      rewrite J. destruct (cCry c); reflexivity.
Qed.

Lemma fc_all : forall hsh f cuts fin, incr 0 cuts fin -> fin <= length f ->
  rev (fc hsh f 0 cuts []) = joinZeros (labelledAll hsh f 0 cuts).
Proof.
  intros hsh f cuts fin I L. destruct cuts as [|e cs]; [reflexivity|].
  destruct I as [I1 I2]. assert (IL := incr_le _ _ _ I2).
  cbn [fc labelledAll].
  assert (A : addChunk hsh (slice f 0 e) 0 [] = [labelled hsh f 0 e]).
  { unfold addChunk, labelled. fold (allZero (slice f 0 e)).
    rewrite slen. replace (0 + Nat.min (e - 0) (length f - 0)) with e by lia.
    destruct (allZero _); reflexivity. }
  rewrite A. rewrite (fc_join hsh f cs e fin [] (labelled hsh f 0 e)); auto.
Qed.

(** ** GetHashesOneByOne *)

Lemma oneTail_fc : forall min max alg hsh f, good_alg min max alg ->
  forall off d cs, steps alg off d cs -> d = skipn off f ->
  forall fuel acc, length d < fuel ->
  oneTail hsh alg fuel d off acc = Ok (fc hsh f off cs acc).
Proof.
  intros min max alg hsh f G. induction 1 as [|off d c cs D A S IH]; intros E fuel acc L.
  - destruct fuel; reflexivity.
  - destruct (G d D) as (c' & A' & C & CL & _). assert (c' = c) by congruence. subst c'.
    destruct fuel as [|fu]; [lia|]. destruct d as [|x d]; [congruence|].
    cbn [oneTail]. rewrite A. cbn [bind fc].
    rewrite IH.
    + repeat f_equal. rewrite E. unfold slice. f_equal. lia.
    + rewrite E, skipn_skipn. f_equal. lia.
    + rewrite skipn_length. lia.
Qed.

Lemma oneLoop_fc : forall min max alg hsh bufsz f, good_alg min max alg -> local_alg max alg ->
  0 < max -> max <= bufsz ->
  forall fuel off rd acc cs, off <= rd -> rd <= length f -> rd <= off + bufsz -> (off < rd \/ off = length f) ->
  (length f - off) + (length f - rd) < fuel ->
  steps alg off (skipn off f) cs ->
  oneLoop hsh alg max bufsz f fuel off rd acc = Ok (fc hsh f off cs acc).
Proof.
  intros min max alg hsh bufsz f G LO M MB.
  induction fuel as [|fu IH]; intros off rd acc cs O1 O2 O3 O4 F S; [lia|].
  cbn [oneLoop]. rewrite bytesOf_slice.
  assert (LD : length (slice f off rd) = rd - off) by (rewrite slen; lia).
  destruct (slice f off rd) as [|x dd] eqn:ED.
  { cbn in LD. destruct O4 as [O4|O4]; [lia|]. subst off.
    rewrite skipn_all in S. inversion S as [|? ? ? ? D]; subst; [reflexivity|congruence]. }
  assert (O5 : off < rd) by (cbn in LD; lia).
  rewrite <- ED in *. clear ED x dd O4.
  destruct (G (slice f off rd)) as (c & A & C & CL & CM & _).
  { intros E. rewrite E in LD. cbn in LD. lia. }
  rewrite A. cbn [bind]. rewrite LD in *.
  destruct (Nat.leb_spec max (rd - off)) as [LG|NL]; cbn [andb].
  - assert (A2 : alg (skipn off f) = Ok c).
    { rewrite LO, <- A, (LO (slice f off rd)). f_equal.
      unfold slice. rewrite firstn_firstn. f_equal. lia. }
    assert (NN : skipn off f <> []).
    { intros X. assert (Y := skipn_length off f). rewrite X in Y. cbn in Y. lia. }
    inversion S as [|o d c' cs' D A3 S']; subst; [congruence|].
    assert (c' = c) by congruence. subst c'. rewrite skipn_skipn in S'.
    replace (c + off) with (off + c) in S' by lia.
    assert (FE : firstn c (slice f off rd) = slice f off (off + c)) by (apply slice_firstn; lia).
    rewrite FE. cbn [fc].
    destruct (Nat.ltb_spec max (rd - off - c)) as [MO|NM].
    + apply IH; auto; lia.
    + destruct (Nat.eqb_spec rd (length f)) as [->|NE].
      * rewrite bytesOf_slice, slice_end.
        eapply oneTail_fc; eauto. rewrite skipn_length. lia.
      * apply IH; auto; lia.
  - destruct (Nat.eqb_spec rd (length f)) as [->|NE].
    + rewrite bytesOf_slice, slice_end. eapply oneTail_fc; eauto. rewrite skipn_length. lia.
    + apply IH; auto; lia.
Qed.

Lemma one_by_one : forall min max alg hsh bufsz f cuts, good_alg min max alg -> local_alg max alg ->
  0 < max -> max <= bufsz -> cutpoints alg 0 f = Ok cuts ->
  getHashesOneByOne hsh alg max bufsz f = Ok (joinZeros (labelledAll hsh f 0 cuts)).
Proof.
  intros min max alg hsh bufsz f cuts G LO M MB E.
  destruct (cutpoints_steps min max alg f G) as (cs & E' & ST).
  assert (cs = cuts) by congruence. subst cs.
  unfold getHashesOneByOne. destruct f as [|x f]; [inversion ST; subst; [reflexivity|congruence]|].
  rewrite (oneLoop_fc min max alg hsh bufsz (x :: f) G LO M MB) with (cs := cuts).
  - cbn [bind]. f_equal. apply (fc_all _ _ _ (length (x :: f))); [|lia].
    apply (steps_incr min max alg G) in ST. exact ST.
  - lia.
  - lia.
  - lia.
  - cbn [length]. lia.
  - lia.
  - exact ST.
Qed.
