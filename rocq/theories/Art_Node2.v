(** Changes of a node: adding, replacing and removing an entry, growing and
    shrinking, and the order in which the children are visited. *)
From Coq Require Import List ZArith Lia Bool Sorting.Sorted.
From Verif Require Import Base Art_Model Art_Node.
Import ListNotations.
Open Scope Z_scope.

Section Lists.
Context {A : Type}.
Lemma shiftIn_spec : forall (l1 l2 : list A) x d m,
  shiftIn (length l1) x (l1 ++ l2 ++ repeat d (S m)) = l1 ++ x :: l2 ++ repeat d m.
Proof.
  intros. unfold shiftIn. rewrite firstn_app_at, skipn_app_at. do 2 f_equal.
  rewrite repeat_snoc, app_assoc. apply removelast_snoc.
Qed.
Lemma shiftOut_spec : forall (l1 l2 : list A) y d m,
  setn (length (l1 ++ l2)) d (shiftOut (length l1) d (l1 ++ y :: l2 ++ repeat d m)) = (l1 ++ l2) ++ repeat d (S m).
Proof.
  intros. unfold shiftOut. rewrite firstn_app_at.
  assert (E : skipn (S (length l1)) (l1 ++ y :: l2 ++ repeat d m) = l2 ++ repeat d m).
  { replace (S (length l1)) with (length (l1 ++ [y])) by (rewrite app_length; cbn; lia).
    change (l1 ++ y :: l2 ++ repeat d m) with (l1 ++ [y] ++ (l2 ++ repeat d m)). rewrite app_assoc. apply skipn_app_at. }
  rewrite E. set (x := last _ d).
  assert (T : setn 0 d (repeat d m ++ [x]) = repeat d (S m)).
  { destruct m as [|m]; [reflexivity|]. cbn. f_equal. 
    assert (Hx : x = d).
    { unfold x. rewrite repeat_snoc.
      replace (l1 ++ y :: l2 ++ repeat d m ++ [d]) with ((l1 ++ y :: l2 ++ repeat d m) ++ [d]) by (rewrite <- !app_assoc; cbn; rewrite <- !app_assoc; reflexivity).
      apply last_last. }
    rewrite Hx. symmetry. apply repeat_snoc. }
  rewrite <- app_assoc. rewrite (app_assoc l1 l2).
  generalize dependent (repeat d m ++ [x]). intros tl T. destruct tl as [|z tl]; [discriminate|].
  rewrite setn_app. cbn in T. now rewrite T.
Qed.

Lemma filter_setn : forall (f : A -> bool) l i x d, (i < length l)%nat ->
  (length (filter f (setn i x l)) + (if f (nth i l d) then 1 else 0) = length (filter f l) + (if f x then 1 else 0))%nat.
Proof.
  intros f. induction l as [|y l IH]; intros [|i] x d H; cbn [length] in H; try lia.
  - cbn [setn filter nth]. destruct (f x), (f y); cbn [length]; lia.
  - specialize (IH i x d ltac:(lia)). cbn [setn filter nth]. destruct (f y); cbn [length]; lia.
Qed.
Lemma filter_all : forall (f : A -> bool) l, (forall x, In x l -> f x = true) -> filter f l = l.
Proof.
  intros f. induction l as [|x l IH]; intros H; cbn; [reflexivity|]. rewrite (H x) by now left. f_equal. apply IH. intros y Hy. apply H. now right.
Qed.
End Lists.

Section Nodes.
Context {C : Type}.
Notation inode := (inode C).
Implicit Types (n : inode) (es : list (Z * C)).

(** ** Sizes *)
Definition cap n : nat := match n with N4 _ _ _ => 4 | N16 _ _ _ => 16 | N48 _ _ _ => 48 | N256 _ _ => 256 end.
Definition lthOf n : nat := match n with N4 l _ _ => l | N16 l _ _ => l | N48 l _ _ => l | N256 l _ => l end.

Lemma ents_lth : forall n es, Ents n es -> lthOf n = length es.
Proof. intros n es (_ & _ & H). destruct n as [l k cs|l k cs|l k cs|l cs]; cbn; [now destruct H..]. Qed.
Lemma full_lth : forall n, full n = (lthOf n =? cap n)%nat.
Proof. now intros []. Qed.

Lemma kid48 : forall l keys (cs : list (option C)) j,
  kid (N48 l keys cs) j = if nth j keys 0 =? 0 then None else nth (Z.to_nat (nth j keys 0 - 1)) cs None.
Proof. reflexivity. Qed.

Lemma ins_sorted : forall es1 es2 k c, sortedE (es1 ++ es2) ->
  Forall (fun e => fst e < k) es1 -> Forall (fun e => k < fst e) es2 -> sortedE (es1 ++ (k, c) :: es2).
Proof.
  intros es1 es2 k c S F1 F2. destruct (sorted_app_inv _ _ _ S) as (S1 & S2 & X). apply sorted_app; auto.
  - constructor; auto.
  - intros x y Hx [<-|Hy]; [|now apply X]. rewrite Forall_forall in F1. now apply F1.
Qed.
Lemma ins_bytes : forall es1 es2 k c, bytesE (es1 ++ es2) -> 0 <= k < 256 -> bytesE (es1 ++ (k, c) :: es2).
Proof. intros es1 es2 k c B H. apply Forall_app in B as (B1 & B2). apply Forall_app. split; [exact B1|]. constructor; auto. Qed.

Lemma rep_sorted : forall es1 es2 k c c', sortedE (es1 ++ (k, c) :: es2) -> sortedE (es1 ++ (k, c') :: es2).
Proof.
  intros es1 es2 k c c' S. destruct (ents_split _ _ _ _ S) as (Lo & Hi). destruct (sorted_app_inv _ _ _ S) as (S1 & S2 & X).
  inversion S2 as [|? ? S2' _]; subst. apply sorted_app; auto.
  - constructor; [exact S2'|]. apply Forall_forall. exact Hi.
  - intros x y Hx [<-|Hy]; [now apply Lo|]. apply X; [exact Hx|now right].
Qed.
Lemma rep_bytes : forall es1 es2 k c c', bytesE (es1 ++ (k, c) :: es2) -> bytesE (es1 ++ (k, c') :: es2).
Proof.
  intros es1 es2 k c c' B. apply Forall_app in B as (B1 & B2). inversion B2; subst. apply Forall_app. split; [exact B1|]. constructor; auto.
Qed.
Lemma rem_sorted : forall es1 e es2, sortedE (es1 ++ e :: es2) -> sortedE (es1 ++ es2).
Proof.
  intros es1 e es2 S. destruct (sorted_app_inv _ _ _ S) as (S1 & S2 & X). inversion S2; subst.
  apply sorted_app; auto. intros x y Hx Hy. apply X; [exact Hx|now right].
Qed.
Lemma rem_bytes : forall es1 e es2, bytesE (es1 ++ e :: es2) -> bytesE (es1 ++ es2).
Proof. intros es1 e es2 B. apply Forall_app in B as (B1 & B2). inversion B2; subst. apply Forall_app. now split. Qed.

(** ** addChild *)
Lemma index_spec : forall cap lth keys cs es1 es2 k, bytesE (es1 ++ es2) -> 0 <= k -> Arr cap lth keys cs (es1 ++ es2) ->
  Forall (fun e => fst e < k) es1 -> Forall (fun e => k < fst e) es2 -> index keys lth k = length es1.
Proof.
  intros m lth keys cs es1 es2 k B Hk (-> & L & -> & _) F1 F2. unfold index. rewrite map_app, <- app_assoc.
  assert (G1 : Forall (fun b => (k <=? b) = false) (map fst es1)).
  { apply Forall_forall. intros x Hx. apply in_map_iff in Hx as (e & <- & He). rewrite Forall_forall in F1.
    apply Z.leb_gt. now apply F1. }
  destruct es2 as [|e2 es2].
  - cbn [map app]. rewrite app_nil_r in *. destruct (m - length es1)%nat as [|z] eqn:Ez.
    + cbn [repeat]. rewrite app_nil_r, findIdx_none by exact G1. reflexivity.
    + cbn [repeat]. destruct (Z.leb_spec k 0) as [K|K].
      * rewrite findIdx_split; [now rewrite map_length|exact G1|]. now apply Z.leb_le.
      * rewrite findIdx_none; [reflexivity|]. apply Forall_app. split; [exact G1|].
        apply Forall_forall. intros x Hx. apply (repeat_spec (S z) 0 x) in Hx. subst x. now apply Z.leb_gt.
  - cbn [map app]. inversion F2; subst. rewrite findIdx_split; [now rewrite map_length|exact G1|]. apply Z.leb_le. lia.
Qed.

Lemma arr_add : forall cap lth keys cs es1 es2 k c, (length (es1 ++ es2) < cap)%nat -> Arr cap lth keys cs (es1 ++ es2) ->
  Arr cap (S lth) (shiftIn (length es1) k keys) (shiftIn (length es1) (Some c) cs) (es1 ++ (k, c) :: es2).
Proof.
  intros m lth keys cs es1 es2 k c L (-> & _ & -> & ->).
  assert (Lx : length (es1 ++ (k, c) :: es2) = S (length (es1 ++ es2))) by (rewrite !app_length; cbn; lia).
  destruct (m - length (es1 ++ es2))%nat as [|z] eqn:Ez; [lia|].
  assert (Ez' : (m - S (length (es1 ++ es2)) = z)%nat) by lia. unfold Arr. rewrite Lx, Ez'.
  split; [reflexivity|]. split; [lia|]. rewrite !map_app, <- !app_assoc. cbn [map fst snd app].
  split.
  - rewrite <- (map_length fst es1). apply shiftIn_spec.
  - rewrite <- (map_length (fun e : Z * C => Some (snd e)) es1). apply shiftIn_spec.
Qed.

Lemma not_in_between : forall es1 es2 k, Forall (fun e => fst e < k) es1 -> Forall (fun e => k < fst e) es2 ->
  forall c, ~ In (k, c) (es1 ++ es2).
Proof.
  intros es1 es2 k F1 F2 c H. rewrite Forall_forall in F1, F2. apply in_app_or in H as [H|H].
  - specialize (F1 _ H). cbn in F1. lia.
  - specialize (F2 _ H). cbn in F2. lia.
Qed.

Lemma in_ins : forall es1 es2 (e x : Z * C), In x (es1 ++ e :: es2) <-> x = e \/ In x (es1 ++ es2).
Proof. intros. rewrite !in_app_iff. cbn. intuition congruence. Qed.

Lemma addChild_spec : forall n es1 es2 k c, Ents n (es1 ++ es2) -> full n = false -> 0 <= k < 256 ->
  Forall (fun e => fst e < k) es1 -> Forall (fun e => k < fst e) es2 ->
  exists n', addChild n k c = Ok n' /\ Ents n' (es1 ++ (k, c) :: es2) /\ cap n' = cap n.
Proof.
  intros n es1 es2 k c E Fu Hk F1 F2. pose proof (not_in_between _ _ _ F1 F2) as NI.
  pose proof (ents_lth _ _ E) as L. rewrite full_lth, L in Fu. apply Nat.eqb_neq in Fu.
  destruct E as (S & B & H).
  assert (S' := ins_sorted _ _ k c S F1 F2). assert (B' := ins_bytes _ _ k c B Hk).
  assert (Lx : length (es1 ++ (k, c) :: es2) = Datatypes.S (length (es1 ++ es2))) by (rewrite !app_length; cbn; lia).
  destruct n as [l keys cs|l keys cs|l keys cs|l cs]; cbn [cap lthOf] in *.
  - unfold addChild. rewrite (index_spec _ _ _ _ _ _ _ B (proj1 Hk) H F1 F2).
    assert (Lc : (length (es1 ++ es2) < 4)%nat) by (destruct H as (_ & Q & _); lia).
    replace (length es1 <? 4)%nat with true by (symmetry; apply Nat.ltb_lt; rewrite app_length in Lc; lia).
    eexists. split; [reflexivity|]. split; [|reflexivity]. split; [exact S'|]. split; [exact B'|]. now apply arr_add.
  - unfold addChild. rewrite (index_spec _ _ _ _ _ _ _ B (proj1 Hk) H F1 F2).
    assert (Lc : (length (es1 ++ es2) < 16)%nat) by (destruct H as (_ & Q & _); lia).
    replace (length es1 <? 16)%nat with true by (symmetry; apply Nat.ltb_lt; rewrite app_length in Lc; lia).
    eexists. split; [reflexivity|]. split; [|reflexivity]. split; [exact S'|]. split; [exact B'|]. now apply arr_add.
  - unfold addChild. destruct H as (Hl & Lk & Lc & Cnt & V & Inj & M).
    destruct (findIdx (fun o => negb (some o)) 0 cs) as [s|] eqn:F.
    + destruct (findIdx_Some _ _ _ _ None F) as (Rs & Fs & _). rewrite Nat.sub_0_r in Fs. cbn [Nat.add] in Rs.
      assert (Ns : nth s cs None = None) by (destruct (nth s cs None); [discriminate|reflexivity]).
      assert (K0 : nth (Z.to_nat k) keys 0 = 0).
      { destruct (Z.eq_dec (nth (Z.to_nat k) keys 0) 0) as [|N0]; [assumption|]. exfalso.
        destruct (V _ N0) as (_ & X). destruct (nth (Z.to_nat (nth (Z.to_nat k) keys 0 - 1)) cs None) as [c0|] eqn:Ec; [|easy].
        apply (NI c0). apply M; [exact Hk|]. rewrite kid48. destruct (Z.eqb_spec (nth (Z.to_nat k) keys 0) 0); [easy|]. exact Ec. }
      assert (W : forall j, nth j keys 0 <> 0 -> Z.to_nat (nth j keys 0 - 1) <> s).
      { intros j Nj Es. destruct (V j Nj) as (_ & X). now rewrite Es in X. }
      eexists. split; [reflexivity|]. split; [|reflexivity]. split; [exact S'|]. split; [exact B'|].
      unfold Tab48. rewrite !setn_length, Lx. split; [lia|]. split; [exact Lk|]. split; [exact Lc|].
      split; [|split; [|split]].
      * pose proof (filter_setn some cs s (Some c) None ltac:(lia)) as Q. rewrite Ns in Q. cbn [some] in Q. lia.
      * intros j Nj. destruct (Nat.eq_dec j (Z.to_nat k)) as [->|D].
        { rewrite setn_same in * by lia. split; [lia|]. replace (Z.to_nat (Z.of_nat s + 1 - 1)) with s by lia. rewrite setn_same by lia. easy. }
        { rewrite setn_other in * by congruence. destruct (V j Nj) as (X & Y). split; [exact X|].
          rewrite setn_other; [exact Y|]. intros Es. symmetry in Es. now apply (W j Nj). }
      * intros i j Ni Eij. destruct (Nat.eq_dec i (Z.to_nat k)) as [->|Di], (Nat.eq_dec j (Z.to_nat k)) as [->|Dj]; auto.
        { rewrite setn_same in * by lia. rewrite setn_other in Eij by congruence. exfalso.
          apply (W j); [rewrite <- Eij; lia|]. rewrite <- Eij. lia. }
        { rewrite (setn_other keys (Z.to_nat k) i) in * by congruence. rewrite setn_same in Eij by lia. exfalso.
          apply (W i); [exact Ni|]. rewrite Eij. lia. }
        { rewrite !setn_other in * by congruence. now apply Inj. }
      * intros b c' Hb. rewrite in_ins, kid48. destruct (Z.eq_dec b k) as [->|D].
        { rewrite setn_same by lia. destruct (Z.eqb_spec (Z.of_nat s + 1) 0); [lia|].
          replace (Z.to_nat (Z.of_nat s + 1 - 1)) with s by lia. rewrite setn_same by lia. split.
          - intros [X|X]; [congruence|]. exfalso. now apply (NI c').
          - intros X. left. congruence. }
        { rewrite setn_other by lia. rewrite (M b c' Hb), kid48. destruct (Z.eqb_spec (nth (Z.to_nat b) keys 0) 0) as [Z0|Z0].
          - intuition congruence.
          - rewrite setn_other by (intros Es; symmetry in Es; now apply (W _ Z0)). intuition congruence. }
    + exfalso. pose proof (findIdx_None _ _ _ F) as A.
      assert (Al : filter some cs = cs) by (apply filter_all; intros x Hx; specialize (A _ Hx); destruct x; [reflexivity|discriminate]).
      rewrite Al in Cnt. lia.
  - unfold addChild. destruct H as (Hl & Lc & M). eexists. split; [reflexivity|]. split; [|reflexivity].
    split; [exact S'|]. split; [exact B'|]. unfold Tab256. rewrite setn_length, Lx. split; [lia|]. split; [exact Lc|].
    intros b c' Hb. rewrite in_ins. destruct (Z.eq_dec b k) as [->|D].
    + rewrite setn_same by lia. split; [intros [X|X]; [congruence|]; exfalso; now apply (NI c')|]. intros X. left. congruence.
    + rewrite setn_other by lia. rewrite (M b c' Hb). intuition congruence.
Qed.

(** ** replace *)
Lemma arr_rep : forall cap lth keys cs es1 es2 k c c', Arr cap lth keys cs (es1 ++ (k, c) :: es2) ->
  Arr cap lth keys (setn (length es1) (Some c') cs) (es1 ++ (k, c') :: es2).
Proof.
  intros m lth keys cs es1 es2 k c c' (-> & L & -> & ->).
  assert (Lx : length (es1 ++ (k, c) :: es2) = length (es1 ++ (k, c') :: es2)) by (rewrite !app_length; reflexivity).
  unfold Arr. rewrite <- Lx. split; [reflexivity|]. split; [exact L|]. rewrite !map_app. cbn [map fst snd]. split; [reflexivity|].
  rewrite <- !app_assoc. cbn [app]. rewrite <- (map_length (fun e : Z * C => Some (snd e)) es1). apply setn_app.
Qed.

Lemma replaceKid_spec : forall n es1 es2 k c c', Ents n (es1 ++ (k, c) :: es2) ->
  Ents (replaceKid n (idx n (length es1) k) c') (es1 ++ (k, c') :: es2).
Proof.
  intros n es1 es2 k c c' E. pose proof (ents_split _ _ _ _ (proj1 E)) as (Lo & Hi). destruct E as (S & B & H).
  assert (Hk : 0 <= k < 256).
  { apply Forall_app in B as (_ & B2). inversion B2; subst. assumption. }
  assert (S' := rep_sorted _ _ k c c' S). assert (B' := rep_bytes _ _ k c c' B).
  assert (Lx : length (es1 ++ (k, c) :: es2) = length (es1 ++ (k, c') :: es2)) by (rewrite !app_length; reflexivity).
  assert (NI : forall x, ~ In (k, x) (es1 ++ es2)).
  { apply not_in_between; apply Forall_forall; assumption. }
  destruct n as [l keys cs|l keys cs|l keys cs|l cs]; unfold replaceKid; cbn [idx].
  - split; [exact S'|]. split; [exact B'|]. eapply arr_rep; eauto.
  - split; [exact S'|]. split; [exact B'|]. eapply arr_rep; eauto.
  - split; [exact S'|]. split; [exact B'|]. destruct H as (Hl & Lk & Lc & Cnt & V & Inj & M).
    assert (In0 : In (k, c) (es1 ++ (k, c) :: es2)) by (apply in_ins; now left).
    assert (K0 := proj1 (M k c Hk) In0). rewrite kid48 in K0.
    destruct (Z.eqb_spec (nth (Z.to_nat k) keys 0) 0) as [|Nk]; [discriminate|].
    destruct (V _ Nk) as (Rk & _). unfold slot. set (s := Z.to_nat (nth (Z.to_nat k) keys 0 - 1)) in *.
    assert (Rs : (s < 48)%nat) by (unfold s; lia).
    assert (W : forall j, nth j keys 0 <> 0 -> j <> Z.to_nat k -> Z.to_nat (nth j keys 0 - 1) <> s).
    { intros j Nj D Es. apply D. apply Inj; [exact Nj|]. destruct (V j Nj) as (Rj & _). unfold s in Es. lia. }
    unfold Tab48. rewrite setn_length, <- Lx. split; [exact Hl|]. split; [exact Lk|]. split; [exact Lc|].
    split; [|split; [|split]].
    + pose proof (filter_setn some cs s (Some c') None ltac:(lia)) as Q. rewrite K0 in Q. cbn [some] in Q. lia.
    + intros j Nj. destruct (V j Nj) as (X & Y). split; [exact X|].
      destruct (Nat.eq_dec (Z.to_nat (nth j keys 0 - 1)) s) as [Es|D].
      * rewrite Es, setn_same by lia. easy.
      * rewrite setn_other by congruence. exact Y.
    + exact Inj.
    + intros b x Hb. rewrite in_ins, kid48. destruct (Z.eq_dec b k) as [->|D].
      * destruct (Z.eqb_spec (nth (Z.to_nat k) keys 0) 0); [easy|]. fold s. rewrite setn_same by lia. split.
        { intros [X|X]; [congruence|]. exfalso. now apply (NI x). }
        { intros X. left. congruence. }
      * pose proof (M b x Hb) as Mb. rewrite in_ins, kid48 in Mb. destruct (Z.eqb_spec (nth (Z.to_nat b) keys 0) 0) as [Z0|Z0].
        { intuition congruence. }
        { rewrite setn_other by (intros Es; symmetry in Es; apply (W (Z.to_nat b)); [exact Z0|lia|exact Es]). intuition congruence. }
  - split; [exact S'|]. split; [exact B'|]. destruct H as (Hl & Lc & M). unfold Tab256. rewrite setn_length, <- Lx.
    split; [exact Hl|]. split; [exact Lc|]. intros b x Hb. rewrite in_ins. destruct (Z.eq_dec b k) as [->|D].
    + rewrite setn_same by lia. split; [intros [X|X]; [congruence|]; exfalso; now apply (NI x)|]. intros X. left. congruence.
    + rewrite setn_other by lia. pose proof (M b x Hb) as Mb. rewrite in_ins in Mb. intuition congruence.
Qed.

Lemma arr_rem : forall cap lth keys cs es1 es2 k c, Arr cap lth keys cs (es1 ++ (k, c) :: es2) ->
  Arr cap (lth - 1) (setn (lth - 1) 0 (shiftOut (length es1) 0 keys)) (setn (lth - 1) None (shiftOut (length es1) None cs)) (es1 ++ es2).
Proof.
  intros m lth keys cs es1 es2 k c (-> & L & -> & ->).
  assert (Lx : length (es1 ++ (k, c) :: es2) = S (length (es1 ++ es2))) by (rewrite !app_length; cbn; lia).
  rewrite Lx in *. replace (S (length (es1 ++ es2)) - 1)%nat with (length (es1 ++ es2)) by lia.
  split; [reflexivity|]. split; [lia|].
  replace (m - length (es1 ++ es2))%nat with (S (m - S (length (es1 ++ es2))))%nat by lia.
  generalize (m - S (length (es1 ++ es2)))%nat. intros z. split.
  - rewrite !map_app, <- !app_assoc. cbn [map fst app]. rewrite app_assoc.
    replace (length (es1 ++ es2)) with (length (map fst es1 ++ map fst es2)) by (rewrite !app_length, !map_length; reflexivity).
    rewrite <- (map_length fst es1). rewrite shiftOut_spec. reflexivity.
  - rewrite !map_app, <- !app_assoc. cbn [map snd app]. rewrite app_assoc. set (h := fun e : Z * C => Some (snd e)).
    replace (length (es1 ++ es2)) with (length (map h es1 ++ map h es2)) by (rewrite !app_length, !map_length; reflexivity).
    rewrite <- (map_length h es1). rewrite shiftOut_spec. reflexivity.
Qed.

Lemma removeKid_spec : forall n es1 es2 k c, Ents n (es1 ++ (k, c) :: es2) ->
  Ents (removeKid n (idx n (length es1) k)) (es1 ++ es2) /\ cap (removeKid n (idx n (length es1) k)) = cap n.
Proof.
  intros n es1 es2 k c E. pose proof (ents_split _ _ _ _ (proj1 E)) as (Lo & Hi). destruct E as (S & B & H).
  assert (Hk : 0 <= k < 256).
  { apply Forall_app in B as (_ & B2). inversion B2; subst. assumption. }
  assert (S' := rem_sorted _ _ _ S). assert (B' := rem_bytes _ _ _ B).
  assert (Lx : length (es1 ++ (k, c) :: es2) = Datatypes.S (length (es1 ++ es2))) by (rewrite !app_length; cbn; lia).
  assert (NI : forall x, ~ In (k, x) (es1 ++ es2)).
  { apply not_in_between; apply Forall_forall; assumption. }
  destruct n as [l keys cs|l keys cs|l keys cs|l cs]; unfold removeKid; cbn [idx cap]; (split; [|reflexivity]).
  - split; [exact S'|]. split; [exact B'|]. eapply arr_rem; eauto.
  - split; [exact S'|]. split; [exact B'|]. eapply arr_rem; eauto.
  - split; [exact S'|]. split; [exact B'|]. destruct H as (Hl & Lk & Lc & Cnt & V & Inj & M).
    assert (In0 : In (k, c) (es1 ++ (k, c) :: es2)) by (apply in_ins; now left).
    assert (K0 := proj1 (M k c Hk) In0). rewrite kid48 in K0.
    destruct (Z.eqb_spec (nth (Z.to_nat k) keys 0) 0) as [|Nk]; [discriminate|].
    destruct (V _ Nk) as (Rk & _). unfold slot. set (s := Z.to_nat (nth (Z.to_nat k) keys 0 - 1)) in *.
    assert (Rs : (s < 48)%nat) by (unfold s; lia).
    assert (W : forall j, nth j keys 0 <> 0 -> j <> Z.to_nat k -> Z.to_nat (nth j keys 0 - 1) <> s).
    { intros j Nj D Es. apply D. apply Inj; [exact Nj|]. destruct (V j Nj) as (Rj & _). unfold s in Es. lia. }
    unfold Tab48. rewrite !setn_length. split; [lia|]. split; [exact Lk|]. split; [exact Lc|].
    split; [|split; [|split]].
    + pose proof (filter_setn some cs s None None ltac:(lia)) as Q. rewrite K0 in Q. cbn [some] in Q. lia.
    + intros j Nj. destruct (Nat.eq_dec j (Z.to_nat k)) as [->|D].
      * rewrite setn_same in Nj by lia. easy.
      * rewrite setn_other in * by congruence. destruct (V j Nj) as (X & Y). split; [exact X|].
        rewrite setn_other by (intros Es; symmetry in Es; now apply (W j Nj)). exact Y.
    + intros i j Ni Eij. destruct (Nat.eq_dec i (Z.to_nat k)) as [->|Di]; [rewrite setn_same in Ni by lia; easy|].
      destruct (Nat.eq_dec j (Z.to_nat k)) as [->|Dj].
      * rewrite Eij in Ni. rewrite setn_same in Ni by lia. easy.
      * rewrite !setn_other in * by congruence. now apply Inj.
    + intros b x Hb. rewrite kid48. destruct (Z.eq_dec b k) as [->|D].
      * rewrite setn_same by lia. cbn. split; [|discriminate]. intros X. exfalso. now apply (NI x).
      * rewrite setn_other by lia. pose proof (M b x Hb) as Mb. rewrite in_ins, kid48 in Mb.
        destruct (Z.eqb_spec (nth (Z.to_nat b) keys 0) 0) as [Z0|Z0].
        { intuition congruence. }
        { rewrite setn_other by (intros Es; symmetry in Es; apply (W (Z.to_nat b)); [exact Z0|lia|exact Es]). intuition congruence. }
  - split; [exact S'|]. split; [exact B'|]. destruct H as (Hl & Lc & M). unfold Tab256. rewrite setn_length.
    split; [lia|]. split; [exact Lc|]. intros b x Hb. destruct (Z.eq_dec b k) as [->|D].
    + rewrite setn_same by lia. split; [|discriminate]. intros X. exfalso. now apply (NI x).
    + rewrite setn_other by lia. pose proof (M b x Hb) as Mb. rewrite in_ins in Mb. intuition congruence.
Qed.

(** ** Lists of the entries of the two tables *)
Fixpoint dense (i : nat) (l : list (option C)) : list (Z * C) :=
  match l with [] => [] | Some c :: r => (Z.of_nat i, c) :: dense (S i) r | None :: r => dense (S i) r end.

Definition view (keys : bytes) (cs : list (option C)) : list (option C) :=
  map (fun w => if w =? 0 then None else nth (Z.to_nat (w - 1)) cs None) keys.

Lemma view_kid : forall lth keys (cs : list (option C)) j, (j < length keys)%nat -> nth j (view keys cs) None = kid (N48 lth keys cs) j.
Proof.
  intros lth keys cs j Hj. rewrite kid48. unfold view.
  rewrite (nth_indep _ None ((fun w => if w =? 0 then None else nth (Z.to_nat (w - 1)) cs None) 0)) by (rewrite map_length; lia).
  rewrite (map_nth (fun w => if w =? 0 then None else nth (Z.to_nat (w - 1)) cs None)). reflexivity.
Qed.

Lemma compact_dense : forall keys cs i, compact i keys cs = dense i (view keys cs).
Proof.
  induction keys as [|w keys IH]; intros cs i; cbn; [reflexivity|]. rewrite !IH.
  destruct (w =? 0); [reflexivity|]. now destruct (nth (Z.to_nat (w - 1)) cs None).
Qed.

Lemma dense_In : forall l i b c, In (b, c) (dense i l) <-> exists j, (j < length l)%nat /\ b = Z.of_nat (i + j) /\ nth j l None = Some c.
Proof.
  induction l as [|o l IH]; intros i b c; cbn [dense length].
  - split; [easy|]. intros (j & Hj & _). lia.
  - assert (X : In (b, c) (dense (S i) l) <-> exists j, (S j < S (length l))%nat /\ b = Z.of_nat (i + S j) /\ nth (S j) (o :: l) None = Some c).
    { rewrite IH. cbn [nth]. split; intros (j & Hj & E & N); exists j; (split; [lia|]); (split; [lia|exact N]). }
    destruct o as [c0|].
    + cbn [In]. rewrite X. split.
      * intros [E|(j & H)]; [|now exists (S j)]. injection E as <- <-. exists 0%nat. cbn. split; [lia|]. split; [f_equal; lia|reflexivity].
      * intros ([|j] & H & E & N); [left|right; now exists j]. cbn in N. injection N as ->. f_equal. lia.
    + rewrite X. split; [intros (j & H); now exists (S j)|]. intros ([|j] & H & E & N); [discriminate|now exists j].
Qed.

Lemma dense_sorted : forall l i, sortedE (dense i l).
Proof.
  induction l as [|[c|] l IH]; intros i; cbn [dense]; [constructor| |apply IH].
  constructor; [apply IH|]. apply Forall_forall. intros (b, x) H. apply dense_In in H as (j & _ & -> & _). cbn. lia.
Qed.

Lemma ents48_dense : forall lth keys cs es, Ents (N48 lth keys cs) es -> es = compact 0 keys cs.
Proof.
  intros lth keys cs es (S & B & H). rewrite compact_dense. apply ents_ext; [exact S|apply dense_sorted|].
  destruct H as (_ & Lk & _ & _ & _ & _ & M). unfold bytesE in B. rewrite Forall_forall in B. intros (b, c). rewrite dense_In. unfold view. rewrite map_length.
  assert (Nv : forall j, (j < 256)%nat -> nth j (map (fun w => if w =? 0 then None else nth (Z.to_nat (w - 1)) cs None) keys) None = kid (N48 lth keys cs) j).
  { intros j Hj. rewrite kid48. rewrite (nth_indep _ None ((fun w => if w =? 0 then None else nth (Z.to_nat (w - 1)) cs None) 0)) by (rewrite map_length; lia).
    rewrite (map_nth (fun w => if w =? 0 then None else nth (Z.to_nat (w - 1)) cs None)). reflexivity. }
  split.
  - intros Hin. assert (Hb := B _ Hin). cbn in Hb. exists (Z.to_nat b). split; [lia|]. split; [cbn; lia|]. rewrite Nv by lia. now apply M.
  - intros (j & Hj & -> & N). cbn [Nat.add]. apply M; [lia|]. rewrite Nat2Z.id, <- Nv by lia. exact N.
Qed.

Lemma ents256_dense : forall lth cs es, Ents (N256 lth cs) es -> es = dense 0 cs.
Proof.
  intros lth cs es (S & B & H). apply ents_ext; [exact S|apply dense_sorted|].
  destruct H as (_ & Lk & M). unfold bytesE in B. rewrite Forall_forall in B. intros (b, c). rewrite dense_In. split.
  - intros Hin. assert (Hb := B _ Hin). cbn in Hb. exists (Z.to_nat b). split; [lia|]. split; [cbn; lia|]. now apply M.
  - intros (j & Hj & -> & N). cbn [Nat.add]. apply M; [lia|]. now rewrite Nat2Z.id.
Qed.

(** ** grow and shrink *)
Lemma tabulate_spec : forall es i tab, sortedE es -> bytesE es -> length tab = 256%nat ->
  forall m, length (tabulate i (map fst es ++ repeat 0 m) (map (fun e => Some (snd e)) es ++ repeat None m) tab) = 256%nat /\
  forall j, nth j (tabulate i (map fst es ++ repeat 0 m) (map (fun e => Some (snd e)) es ++ repeat None m) tab) 0 =
            match findIdx (fun e => (fst e =? Z.of_nat j)) 0 es with
            | Some p => Z.of_nat (i + p) + 1
            | None => nth j tab 0
            end.
Proof.
  induction es as [|[b c] es IH]; intros i tab S B L m.
  - cbn [map app findIdx].
    assert (X : forall m i, tabulate i (repeat 0 m) (repeat (@None C) m) tab = tab) by (induction m0 as [|m0 IHm]; intros i0; cbn; auto).
    rewrite X. now split.
  - cbn [map app fst snd tabulate]. inversion S as [|? ? S' F]; inversion B as [|? ? Hb B']; subst. cbn in Hb. rewrite Forall_forall in F.
    destruct (IH (Datatypes.S i) (setn (Z.to_nat b) (Z.of_nat i + 1) tab) S' B' ltac:(now rewrite setn_length) m) as (IL & IN).
    split; [exact IL|]. intros j. rewrite IN. cbn [findIdx fst].
    assert (Sh : forall q, findIdx (fun e : Z * C => fst e =? Z.of_nat j) (Datatypes.S q) es = option_map Datatypes.S (findIdx (fun e : Z * C => fst e =? Z.of_nat j) q es)).
    { clear. intros q. revert q. induction es as [|e es IH]; intros q; cbn; [reflexivity|]. destruct (fst e =? Z.of_nat j); [reflexivity|]. apply IH. }
    destruct (Z.eqb_spec b (Z.of_nat j)) as [->|D].
    + rewrite findIdx_none.
      * rewrite Nat2Z.id, setn_same by lia. lia.
      * apply Forall_forall. intros e He. specialize (F _ He). cbn in F. apply Z.eqb_neq. lia.
    + rewrite (Sh 0%nat). destruct (findIdx _ 0 es) as [p|]; cbn [option_map]; [lia|].
      rewrite setn_other by lia. reflexivity.
Qed.

Lemma sorted_pos : forall es1 b c es2, sortedE (es1 ++ (b, c) :: es2) ->
  findIdx (fun e => fst e =? b) 0 (es1 ++ (b, c) :: es2) = Some (length es1).
Proof.
  intros es1 b c es2 S. destruct (ents_split _ _ _ _ S) as (Lo & _). rewrite findIdx_split; [reflexivity| |apply Z.eqb_refl].
  apply Forall_forall. intros e He. apply Z.eqb_neq. specialize (Lo _ He). lia.
Qed.

Lemma grow_spec : forall n es, Ents n es -> full n = true -> (length es < 256)%nat ->
  exists n', grow n = Ok n' /\ Ents n' es /\ cap n' = match cap n with 4%nat => 16%nat | 16%nat => 48%nat | _ => 256%nat end.
Proof.
  intros n es E Fu L6. pose proof (ents_lth _ _ E) as L. rewrite full_lth, L in Fu. apply Nat.eqb_eq in Fu.
  pose proof E as (S & B & H).
  destruct n as [l keys cs|l keys cs|l keys cs|l cs]; cbn [cap lthOf] in *; unfold grow.
  - destruct H as (Hl & _ & Hk & Hc). rewrite Fu in Hk, Hc. cbn [Nat.sub repeat] in Hk, Hc. rewrite app_nil_r in Hk, Hc.
    eexists. split; [reflexivity|]. split; [|reflexivity]. split; [exact S|]. split; [exact B|].
    unfold Arr. rewrite Fu. split; [lia|]. split; [lia|]. subst. now split.
  - destruct H as (Hl & _ & Hk & Hc). rewrite Fu in Hk, Hc. cbn [Nat.sub repeat] in Hk, Hc.
    remember (repeat 0 256) as zs eqn:Ezs.
    assert (Lzs : length zs = 256%nat) by (rewrite Ezs; apply repeat_length).
    assert (T0 : forall j, nth j zs 0 = 0).
    { intros j. destruct (Nat.lt_ge_cases j 256) as [?|?]; [rewrite Ezs; apply nth_repeat|]. apply nth_overflow. lia. }
    clear Ezs. pose proof (tabulate_spec es 0 zs S B Lzs 0) as (TL & TN).
    cbn [repeat] in TL, TN. rewrite <- Hk, <- Hc in TL, TN.
    set (tab := tabulate 0 keys cs zs) in *. clearbody tab. rewrite app_nil_r in Hk, Hc.
    assert (Lcs : length cs = 16%nat) by (rewrite Hc, map_length; exact Fu).
    assert (Ncs : forall p, (p < 16)%nat -> nth p (cs ++ repeat None 32) None = option_map snd (nth_error es p)).
    { intros p Hp. rewrite app_nth1 by lia. rewrite Hc. destruct (nth_error es p) as [e|] eqn:X; [|apply nth_error_None in X; lia].
      cbn. apply nth_error_nth. rewrite (map_nth_error _ _ _ X). reflexivity. }
    assert (NT : forall j, nth j tab 0 <> 0 -> exists p e, nth_error es p = Some e /\ fst e = Z.of_nat j /\ nth j tab 0 = Z.of_nat p + 1 /\ (p < 16)%nat).
    { intros j Nj. rewrite TN in Nj |- *. rewrite T0 in Nj |- *. destruct (findIdx _ 0 es) as [p|] eqn:F; [|easy].
      destruct es as [|e0 es0] eqn:Ees; [discriminate|]. rewrite <- Ees in *.
      destruct (findIdx_Some _ _ _ _ e0 F) as (R & T & _). rewrite Nat.sub_0_r in T. apply Z.eqb_eq in T.
      exists p, (nth p es e0). split; [apply nth_error_nth'; lia|]. split; [exact T|]. split; [f_equal|lia]. }
    eexists. split; [reflexivity|]. split; [|reflexivity]. split; [exact S|]. split; [exact B|].
    unfold Tab48. split; [exact L|]. split; [exact TL|]. split; [rewrite app_length, Lcs; reflexivity|]. split; [|split; [|split]].
    + rewrite filter_app, app_length, (filter_all some cs).
      * rewrite Lcs. cbn. lia.
      * intros x Hx. rewrite Hc in Hx. apply in_map_iff in Hx as (e & <- & _). reflexivity.
    + intros j Nj. destruct (NT j Nj) as (p & e & Ne & _ & -> & Hp). split; [lia|].
      replace (Z.to_nat (Z.of_nat p + 1 - 1)) with p by lia. rewrite Ncs, Ne by lia. easy.
    + intros i j Ni Eij. destruct (NT i Ni) as (p & e & Ne & Be & E1 & _).
      rewrite Eij in Ni. destruct (NT j Ni) as (p' & e' & Ne' & Be' & E2 & _).
      assert (p = p') by lia. subst p'. assert (e = e') by congruence. subst. lia.
    + intros b c Hb. rewrite kid48. split.
      * intros Hin. apply in_split in Hin as (es1 & es2 & ->). rewrite TN, Z2Nat.id by lia. rewrite (sorted_pos _ _ _ _ S).
        destruct (Z.eqb_spec (Z.of_nat (0 + length es1) + 1) 0); [lia|]. replace (Z.to_nat _) with (length es1) by lia.
        rewrite Ncs by (rewrite app_length in Fu; cbn in Fu; lia).
        rewrite nth_error_app2, Nat.sub_diag by lia. reflexivity.
      * destruct (Z.eqb_spec (nth (Z.to_nat b) tab 0) 0) as [|Nj]; [discriminate|]. destruct (NT _ Nj) as (p & e & Ne & Be & -> & Hp).
        replace (Z.to_nat (Z.of_nat p + 1 - 1)) with p by lia. rewrite Ncs, Ne by lia. cbn. intros X. injection X as <-.
        apply nth_error_In in Ne. rewrite Z2Nat.id in Be by lia. rewrite <- Be. now rewrite <- surjective_pairing.
  - destruct H as (Hl & Lk & Lc & Cnt & V & Inj & M). eexists. split; [reflexivity|]. split; [|reflexivity].
    split; [exact S|]. split; [exact B|]. unfold Tab256. rewrite map_length. split; [exact L|]. split; [exact Lk|].
    intros b c Hb. rewrite (M b c Hb), <- view_kid by lia. reflexivity.
  - lia.
Qed.

Lemma numbered_view : forall cs pre post, view (numbered (Z.of_nat (length pre)) cs) (map (fun c => Some c) pre ++ filter some cs ++ post) = cs.
Proof.
  induction cs as [|[c|] cs IH]; intros pre post; cbn [numbered view map filter some].
  - reflexivity.
  - destruct (Z.eqb_spec (Z.of_nat (length pre) + 1) 0); [lia|].
    replace (Z.to_nat (Z.of_nat (length pre) + 1 - 1)) with (length (map (fun c => Some c) pre)) by (rewrite map_length; lia).
    cbn [app]. rewrite nth_app_at. f_equal. specialize (IH (pre ++ [c]) post). rewrite app_length in IH. cbn [length] in IH.
    replace (Z.of_nat (length pre + 1)) with (Z.of_nat (length pre) + 1) in IH by lia.
    rewrite map_app, <- app_assoc in IH. exact IH.
  - f_equal. apply IH.
Qed.

Lemma numbered_range : forall (cs : list (option C)) k j, 0 <= k -> nth j (numbered k cs) 0 <> 0 ->
  k < nth j (numbered k cs) 0 <= k + Z.of_nat (length (filter some cs)).
Proof.
  induction cs as [|[c|] cs IH]; intros k [|j] Hk H; cbn [numbered nth filter some length] in *; try easy.
  - lia.
  - specialize (IH (k + 1) j ltac:(lia) H). lia.
  - apply IH; auto.
Qed.
Lemma numbered_inj : forall (cs : list (option C)) k i j, 0 <= k -> nth i (numbered k cs) 0 <> 0 -> nth i (numbered k cs) 0 = nth j (numbered k cs) 0 -> i = j.
Proof.
  induction cs as [|[c|] cs IH]; intros k [|i] [|j] Hk Ni E; cbn [numbered nth] in *; try easy.
  - pose proof (numbered_range cs (k + 1) j ltac:(lia) ltac:(lia)). lia.
  - pose proof (numbered_range cs (k + 1) i ltac:(lia) Ni). lia.
  - f_equal. eapply (IH (k + 1)); eauto. lia.
  - f_equal. eapply (IH k); eauto.
Qed.
Lemma numbered_length : forall (cs : list (option C)) k, length (numbered k cs) = length cs.
Proof. induction cs as [|[c|] cs IH]; intros k; cbn; auto. Qed.

Lemma filter_dense : forall (cs : list (option C)) i, filter some cs = map (fun e => Some (snd e)) (dense i cs).
Proof. induction cs as [|[c|] cs IH]; intros i; cbn; [reflexivity| |apply IH]. f_equal. apply IH. Qed.

Lemma pad_short : forall {A} m (d : A) l, (length l <= m)%nat -> pad m d l = l ++ repeat d (m - length l).
Proof. intros A m d l H. unfold pad. now rewrite firstn_all2. Qed.

(** A node shrinks when it holds one entry less than the next smaller node can
    hold at most plus one. *)
Lemma shrink_spec : forall n es, Ents n es -> isN4 n = false ->
  (length es <= match cap n with 16 => 4 | 48 => 16 | _ => 48 end)%nat ->
  exists n', shrink n = Ok n' /\ Ents n' es /\ cap n' = match cap n with 16%nat => 4%nat | 48%nat => 16%nat | _ => 48%nat end.
Proof.
  intros n es E N4 Ln. pose proof (ents_lth _ _ E) as L. pose proof E as (S & B & H).
  destruct n as [l keys cs|l keys cs|l keys cs|l cs]; cbn [cap lthOf isN4] in *; unfold shrink; [discriminate| | |].
  - destruct H as (Hl & _ & Hk & Hc). eexists. split; [reflexivity|]. split; [|reflexivity]. split; [exact S|]. split; [exact B|].
    split; [exact L|]. split; [exact Ln|]. rewrite Hk, Hc. split.
    + rewrite firstn_app, map_length, firstn_all2 by (rewrite map_length; exact Ln). f_equal.
      assert (X : (16 - length es = (4 - length es) + 12)%nat) by lia. rewrite X, repeat_app, firstn_app, repeat_length, Nat.sub_diag, firstn_O, app_nil_r.
      apply firstn_all2. now rewrite repeat_length.
    + rewrite firstn_app, map_length, firstn_all2 by (rewrite map_length; exact Ln). f_equal.
      assert (X : (16 - length es = (4 - length es) + 12)%nat) by lia. rewrite X, repeat_app, firstn_app, repeat_length, Nat.sub_diag, firstn_O, app_nil_r.
      apply firstn_all2. now rewrite repeat_length.
  - pose proof (ents48_dense _ _ _ _ E) as Ed. rewrite <- Ed. apply Nat.leb_le in Ln as Ln'. rewrite Ln'.
    eexists. split; [reflexivity|]. split; [|reflexivity]. split; [exact S|]. split; [exact B|].
    split; [exact L|]. split; [exact Ln|]. rewrite !pad_short by (rewrite map_length; exact Ln). now rewrite !map_length.
  - pose proof (ents256_dense _ _ _ E) as Ed. destruct H as (Hl & Lc & M).
    assert (Fl : length (filter some cs) = length es) by (rewrite (filter_dense cs 0), <- Ed, map_length; reflexivity).
    rewrite Fl. apply Nat.leb_le in Ln as Ln'. rewrite Ln'.
    eexists. split; [reflexivity|]. split; [|reflexivity]. split; [exact S|]. split; [exact B|].
    rewrite pad_short by lia. rewrite Fl.
    pose proof (numbered_view cs [] (repeat None (48 - length es))) as Vw. cbn [length map app] in Vw. change (Z.of_nat 0) with 0 in Vw.
    pose proof (numbered_length cs 0) as NL.
    set (keys := numbered 0 cs) in *. set (cs' := filter some cs ++ repeat None (48 - length es)) in *.
    assert (Lc' : length cs' = 48%nat) by (unfold cs'; rewrite app_length, repeat_length, Fl; lia).
    unfold Tab48. split; [exact L|]. split; [lia|]. split; [exact Lc'|]. split; [|split; [|split]].
    + unfold cs'. rewrite filter_app, app_length.
      assert (X : forall m, filter some (repeat (@None C) m) = []) by (induction m as [|m IHm]; cbn; auto). rewrite X.
      assert (Y : filter some (filter some cs) = filter some cs) by (apply filter_all; intros x Hx; now apply filter_In in Hx).
      rewrite Y, Fl. cbn. lia.
    + intros j Nj. pose proof (numbered_range cs 0 j ltac:(lia) Nj) as R. fold keys in R. rewrite Fl in R. split; [lia|].
      unfold cs'. rewrite app_nth1 by lia.
      assert (Q : some (nth (Z.to_nat (nth j keys 0 - 1)) (filter some cs) None) = true).
      { assert (Hin : In (nth (Z.to_nat (nth j keys 0 - 1)) (filter some cs) None) (filter some cs)) by (apply nth_In; lia).
        now apply filter_In in Hin. }
      destruct (nth (Z.to_nat (nth j keys 0 - 1)) (filter some cs) None); easy.
    + intros i j. apply numbered_inj. lia.
    + intros b c Hb. rewrite (M b c Hb), <- (view_kid l keys cs') by lia. rewrite Vw. reflexivity.
Qed.

(** ** Order of the visits *)
Lemma walk_spec : forall es2 n es1 f b c, Ents n (es1 ++ (b, c) :: es2) -> (length es2 < f)%nat ->
  walk f n (Some b) = map (fun p => idx n (fst p) (fst (snd p))) (indexed (S (length es1)) es2).
Proof.
  induction es2 as [|[b2 c2] es2 IH]; intros n es1 f b c E Hf; (destruct f as [|f]; [lia|]); cbn [walk].
  - rewrite (next_spec n b (es1 ++ [(b, c)]) []).
    + reflexivity.
    + rewrite app_nil_r. exact E.
    + destruct (ents_split _ _ _ _ (proj1 E)) as (Lo & _). apply Forall_app. split.
      * apply Forall_forall. intros e He. specialize (Lo _ He). lia.
      * constructor; [cbn; lia|constructor].
    + constructor.
  - destruct (ents_split _ _ _ _ (proj1 E)) as (Lo & Hi).
    rewrite (next_spec n b (es1 ++ [(b, c)]) ((b2, c2) :: es2)).
    + cbn [indexed map fst snd]. rewrite app_length. cbn [length]. rewrite Nat.add_1_r. f_equal.
      rewrite (IH n (es1 ++ [(b, c)]) f b2 c2).
      * rewrite app_length. cbn [length]. rewrite Nat.add_1_r. reflexivity.
      * rewrite <- app_assoc. exact E.
      * cbn in Hf. lia.
    + rewrite <- app_assoc. exact E.
    + apply Forall_app. split; [|constructor; [cbn; lia|constructor]]. apply Forall_forall. intros e He. specialize (Lo _ He). lia.
    + apply Forall_forall. exact Hi.
Qed.

Lemma bytes_length : forall es, sortedE es -> bytesE es -> (length es <= 256)%nat.
Proof.
  intros es S B.
  assert (X : forall es lo, sortedE es -> Forall (fun e => lo <= fst e < 256) es -> lo <= 256 -> Z.of_nat (length es) <= 256 - lo).
  { induction es0 as [|e es0 IH]; intros lo S0 B0 H; cbn [length]; [lia|]. inversion S0 as [|? ? S1 F]; inversion B0 as [|? ? Be B1]; subst.
    specialize (IH (fst e + 1) S1). rewrite Forall_forall in F, B1.
    assert (Forall (fun x : Z * C => fst e + 1 <= fst x < 256) es0).
    { apply Forall_forall. intros x Hx. specialize (F _ Hx). specialize (B1 _ Hx). lia. }
    specialize (IH H0 ltac:(lia)). lia. }
  specialize (X es 0 S B ltac:(lia)). lia.
Qed.

Lemma visit_spec : forall n es, Ents n es -> visit n = map (fun p => idx n (fst p) (fst (snd p))) (indexed 0 es).
Proof.
  intros n es E. unfold visit. assert (Hl := bytes_length _ (proj1 E) (proj1 (proj2 E))). remember 256%nat as m eqn:Em.
  cbn [walk]. rewrite (next_first n es E). destruct es as [|[b c] es]; [reflexivity|]. cbn [indexed map fst snd]. f_equal.
  apply (walk_spec es n [] m b c E). cbn in Hl. lia.
Qed.

Lemma order_spec : forall n es, Ents n es -> order n = map (fun p => slot n (idx n (fst p) (fst (snd p)))) (indexed 0 es).
Proof.
  intros n es E. pose proof E as (S & B & H).
  assert (AR : forall es i, map (fun p : nat * (Z * C) => fst p) (indexed i es) = seq i (length es)).
  { induction es0 as [|e es0 IH]; intros i; cbn; [reflexivity|]. now rewrite IH. }
  destruct n as [l keys cs|l keys cs|l keys cs|l cs]; unfold order, slot; cbn [idx].
  - destruct H as (-> & _). symmetry. apply AR.
  - destruct H as (-> & _). symmetry. apply AR.
  - rewrite (ents48_dense _ _ _ _ E). destruct H as (_ & _ & _ & _ & V & _).
    assert (X : forall keys' pre i, keys = pre ++ keys' ->
      map (fun w => Z.to_nat (w - 1)) (filter (fun w => negb (w =? 0)) keys') =
      map (fun p => Z.to_nat (nth (Z.to_nat (fst (snd p))) keys 0 - 1)) (indexed i (compact (length pre) keys' cs))).
    { induction keys' as [|w keys' IH]; intros pre i Ek; cbn [filter compact indexed map]; [reflexivity|].
      assert (Nw : nth (length pre) keys 0 = w) by (rewrite Ek; apply nth_app_at).
      assert (Ek' : keys = (pre ++ [w]) ++ keys') by (rewrite <- app_assoc; exact Ek).
      assert (Ll : length (pre ++ [w]) = Datatypes.S (length pre)) by (rewrite app_length; cbn; lia).
      destruct (Z.eqb_spec w 0) as [->|Dw]; cbn [negb].
      - specialize (IH _ i Ek'). now rewrite Ll in IH.
      - destruct (V (length pre)) as (_ & Y); [congruence|]. rewrite Nw in Y.
        destruct (nth (Z.to_nat (w - 1)) cs None) as [c|]; [|easy]. cbn [indexed map fst snd]. rewrite Nat2Z.id, Nw. f_equal.
        specialize (IH _ (Datatypes.S i) Ek'). now rewrite Ll in IH. }
    apply (X keys [] 0%nat eq_refl).
  - rewrite (ents256_dense _ _ _ E).
    assert (X : forall cs i j, live i cs = map (fun p : nat * (Z * C) => Z.to_nat (fst (snd p))) (indexed j (dense i cs))).
    { induction cs0 as [|[c|] cs0 IH]; intros i j; cbn [live dense indexed map fst snd]; [reflexivity| |apply IH].
      rewrite Nat2Z.id. f_equal. apply IH. }
    apply X.
Qed.

Lemma slot_replace : forall n i c j, slot (replaceKid n i c) j = slot n j.
Proof. now intros []. Qed.
Lemma idx_replace : forall n i c j b, idx (replaceKid n i c) j b = idx n j b.
Proof. now intros []. Qed.
Lemma cap_replace : forall n i c, cap (replaceKid n i c) = cap n.
Proof. now intros []. Qed.
Lemma replace_setKids : forall n i c, replaceKid n i c = setKids n (setn (slot n i) (Some c) (kids n)).
Proof. now intros []. Qed.
Lemma setKids_twice : forall n a b, setKids (setKids n a) b = setKids n b.
Proof. now intros []. Qed.
Lemma kids_setKids : forall n a, kids (setKids n a) = a.
Proof. now intros []. Qed.
Lemma setKids_same : forall n, setKids n (kids n) = n.
Proof. now intros []. Qed.
Lemma idx_setKids : forall n cs j b, idx (setKids n cs) j b = idx n j b.
Proof. now intros []. Qed.
Lemma cap_setKids : forall n cs, cap (setKids n cs) = cap n.
Proof. now intros []. Qed.

Lemma kid_slot : forall n es1 b c es2, Ents n (es1 ++ (b, c) :: es2) -> nth (slot n (idx n (length es1) b)) (kids n) None = Some c.
Proof.
  intros n es1 b c es2 E. pose proof (kid_at _ _ _ _ _ E) as K.
  destruct n as [l keys cs|l keys cs|l keys cs|l cs]; cbn [idx] in *; try exact K.
  rewrite kid48 in K. destruct (nth (Z.to_nat b) keys 0 =? 0); [discriminate|]. exact K.
Qed.

Lemma node4_ents : Ents (@node4 C) [].
Proof. split; [constructor|]. split; [constructor|]. split; [reflexivity|]. split; [cbn; lia|]. now split. Qed.

End Nodes.
