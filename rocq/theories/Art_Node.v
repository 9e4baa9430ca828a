(** The four node types of the radix tree: each operation on the arrays is the
    operation on the sorted list of the entries (byte, child) of the node. *)
From Coq Require Import List ZArith Lia Bool Sorting.Sorted.
From Verif Require Import Base Art_Model.
Import ListNotations.
Open Scope Z_scope.

(** ** Lists *)
Section Lists.
Context {A : Type}.

Lemma setn_length : forall (l : list A) i x, length (setn i x l) = length l.
Proof. induction l as [|y l IH]; intros [|i] x; cbn; auto. Qed.

Lemma setn_same : forall (l : list A) i x d, (i < length l)%nat -> nth i (setn i x l) d = x.
Proof. induction l as [|y l IH]; intros [|i] x d H; cbn in *; try lia; auto. apply IH; lia. Qed.

Lemma setn_other : forall (l : list A) i j x d, i <> j -> nth j (setn i x l) d = nth j l d.
Proof.
  induction l as [|y l IH]; intros [|i] [|j] x d H; cbn; auto; try congruence.
Qed.

Lemma setn_app : forall (l1 l2 : list A) y x, setn (length l1) x (l1 ++ y :: l2) = l1 ++ x :: l2.
Proof. induction l1 as [|z l1 IH]; intros l2 y x; cbn; [reflexivity|]. now rewrite IH. Qed.

Lemma nth_app_at : forall (l1 l2 : list A) x d, nth (length l1) (l1 ++ x :: l2) d = x.
Proof. intros. rewrite app_nth2, Nat.sub_diag by lia. reflexivity. Qed.

Lemma firstn_app_at : forall (l1 l2 : list A), firstn (length l1) (l1 ++ l2) = l1.
Proof. intros. rewrite firstn_app, Nat.sub_diag, firstn_O, app_nil_r. apply firstn_all. Qed.
Lemma skipn_app_at : forall (l1 l2 : list A), skipn (length l1) (l1 ++ l2) = l2.
Proof. intros. rewrite skipn_app, Nat.sub_diag, skipn_all. reflexivity. Qed.

Lemma removelast_snoc : forall (l : list A) x, removelast (l ++ [x]) = l.
Proof. intros. apply removelast_last. Qed.

Lemma repeat_snoc : forall n (x : A), repeat x (S n) = repeat x n ++ [x].
Proof. intros. cbn. apply repeat_cons. Qed.

Lemma findIdx_Some : forall (f : A -> bool) l i j d, findIdx f i l = Some j ->
  (i <= j < i + length l)%nat /\ f (nth (j - i) l d) = true /\ forall m, (m < j - i)%nat -> f (nth m l d) = false.
Proof.
  intros f. induction l as [|x l IH]; intros i j d H; cbn in *; [discriminate|].
  destruct (f x) eqn:Fx.
  - injection H as <-. rewrite Nat.sub_diag. split; [lia|]. split; [exact Fx|]. lia.
  - destruct (IH (S i) j d H) as (H1 & H2 & H3).
    assert (E : (j - i = S (j - S i))%nat) by lia. rewrite E.
    split; [lia|]. split; [exact H2|]. intros [|m] Hm; [exact Fx|]. apply H3. lia.
Qed.

Lemma findIdx_None : forall (f : A -> bool) l i, findIdx f i l = None -> forall x, In x l -> f x = false.
Proof.
  intros f. induction l as [|y l IH]; intros i H x Hx; cbn in *; [easy|].
  destruct (f y) eqn:Fy; [discriminate|]. destruct Hx as [<-|Hx]; [exact Fy|]. eapply IH; eauto.
Qed.

Lemma findIdx_split : forall (f : A -> bool) l1 x l2 i, Forall (fun y => f y = false) l1 -> f x = true ->
  findIdx f i (l1 ++ x :: l2) = Some (i + length l1)%nat.
Proof.
  intros f. induction l1 as [|y l1 IH]; intros x l2 i H Hx; cbn.
  - rewrite Hx. f_equal. lia.
  - inversion H as [|? ? Hy Hr]; subst. rewrite Hy, IH by assumption. f_equal. lia.
Qed.

Lemma findIdx_none : forall (f : A -> bool) l i, Forall (fun y => f y = false) l -> findIdx f i l = None.
Proof. intros f. induction l as [|y l IH]; intros i H; cbn; [easy|]. inversion H as [|? ? Hy Hr]; subst. now rewrite Hy, IH. Qed.

Lemma findLast_none : forall (f : A -> bool) l i, Forall (fun y => f y = false) l -> findLast f i l = None.
Proof. intros f. induction l as [|y l IH]; intros i H; cbn; [easy|]. inversion H as [|? ? Hy Hr]; subst. now rewrite IH, Hy. Qed.

Lemma findLast_split : forall (f : A -> bool) l1 x l2 i, Forall (fun y => f y = false) l2 -> f x = true ->
  findLast f i (l1 ++ x :: l2) = Some (i + length l1)%nat.
Proof.
  intros f. induction l1 as [|y l1 IH]; intros x l2 i H Hx; cbn.
  - rewrite findLast_none by assumption. rewrite Hx. f_equal. lia.
  - rewrite IH by assumption. f_equal. lia.
Qed.

Lemma indexed_nth : forall (l : list A) i j d, (j < length l)%nat -> nth j (indexed i l) (0%nat, d) = ((i + j)%nat, nth j l d).
Proof.
  induction l as [|x l IH]; intros i [|j] d H; cbn in *; try lia.
  - f_equal; lia.
  - rewrite IH by lia. f_equal; lia.
Qed.
Lemma indexed_length : forall (l : list A) i, length (indexed i l) = length l.
Proof. induction l as [|x l IH]; intros i; cbn; auto. Qed.
Lemma indexed_In : forall (l : list A) d j, (j < length l)%nat -> In (j, nth j l d) (indexed 0 l).
Proof.
  intros l d j H. pose proof (indexed_nth l 0 j d H) as E. cbn [Nat.add] in E. rewrite <- E. apply nth_In. now rewrite indexed_length.
Qed.
Lemma indexed_split : forall (l1 l2 : list A) i, indexed i (l1 ++ l2) = indexed i l1 ++ indexed (i + length l1) l2.
Proof.
  induction l1 as [|x l1 IH]; intros l2 i; cbn; [now rewrite Nat.add_0_r|].
  rewrite IH. do 2 f_equal. f_equal. lia.
Qed.
Lemma indexed_elem : forall (l : list A) i p d, In p (indexed i l) -> exists j, (j < length l)%nat /\ p = ((i + j)%nat, nth j l d).
Proof.
  induction l as [|x l IH]; intros i p d H; cbn in *; [easy|]. destruct H as [<-|H].
  - exists 0%nat. split; [lia|]. cbn. f_equal. lia.
  - destruct (IH _ _ d H) as (j & Hj & ->). exists (S j). split; [lia|]. cbn. f_equal. lia.
Qed.
Lemma split_nth : forall (l : list A) j d, (j < length l)%nat -> exists l1 l2, l = l1 ++ nth j l d :: l2 /\ length l1 = j.
Proof.
  intros l j d H. destruct (nth_split l d H) as (l1 & l2 & E & L). exists l1, l2. split; assumption.
Qed.
End Lists.

Lemma sorted_app_inv : forall {A} (R : A -> A -> Prop) l1 l2, StronglySorted R (l1 ++ l2) ->
  StronglySorted R l1 /\ StronglySorted R l2 /\ forall x y, In x l1 -> In y l2 -> R x y.
Proof.
  intros A R. induction l1 as [|x l1 IH]; intros l2 H; cbn in *.
  - split; [constructor|]. split; [exact H|]. easy.
  - inversion H as [|? ? S F]; subst. destruct (IH _ S) as (S1 & S2 & C).
    rewrite Forall_forall in F. split; [|split; [exact S2|]].
    + constructor; [exact S1|]. apply Forall_forall. intros y Hy. apply F. apply in_or_app. now left.
    + intros a b [<-|Ha] Hb; [apply F, in_or_app; now right|]. now apply C.
Qed.

Lemma sorted_app : forall {A} (R : A -> A -> Prop) l1 l2, StronglySorted R l1 -> StronglySorted R l2 ->
  (forall x y, In x l1 -> In y l2 -> R x y) -> StronglySorted R (l1 ++ l2).
Proof.
  intros A R. induction l1 as [|x l1 IH]; intros l2 S1 S2 C; cbn; [exact S2|].
  inversion S1 as [|? ? S F]; subst. rewrite Forall_forall in F. constructor.
  - apply IH; auto. intros a b Ha Hb. apply C; [now right|exact Hb].
  - apply Forall_forall. intros y Hy. apply in_app_or in Hy as [Hy|Hy]; [now apply F|]. apply C; [now left|exact Hy].
Qed.

(** ** Entries *)
Section Nodes.
Context {C : Type}.
Notation inode := (inode C).
Implicit Types (n : inode) (es : list (Z * C)).

Definition sortedE es := StronglySorted (fun a b => fst a < fst b) es.
Definition bytesE es := Forall (fun e => 0 <= fst e < 256) es.

Definition Arr (cap lth : nat) (keys : bytes) (cs : list (option C)) es : Prop :=
  lth = length es /\ (length es <= cap)%nat /\
  keys = map fst es ++ repeat 0 (cap - length es) /\
  cs = map (fun e => Some (snd e)) es ++ repeat None (cap - length es).

Definition Tab48 (lth : nat) (keys : bytes) (cs : list (option C)) es : Prop :=
  lth = length es /\ length keys = 256%nat /\ length cs = 48%nat /\
  length (filter some cs) = length es /\
  (forall j, nth j keys 0 <> 0 -> 1 <= nth j keys 0 <= 48 /\ nth (Z.to_nat (nth j keys 0 - 1)) cs None <> None) /\
  (forall i j, nth i keys 0 <> 0 -> nth i keys 0 = nth j keys 0 -> i = j) /\
  (forall b c, 0 <= b < 256 -> (In (b, c) es <-> kid (N48 lth keys cs) (Z.to_nat b) = Some c)).

Definition Tab256 (lth : nat) (cs : list (option C)) es : Prop :=
  lth = length es /\ length cs = 256%nat /\
  (forall b c, 0 <= b < 256 -> (In (b, c) es <-> nth (Z.to_nat b) cs None = Some c)).

Definition Ents n es : Prop :=
  sortedE es /\ bytesE es /\
  match n with
  | N4 lth keys cs => Arr 4 lth keys cs es
  | N16 lth keys cs => Arr 16 lth keys cs es
  | N48 lth keys cs => Tab48 lth keys cs es
  | N256 lth cs => Tab256 lth cs es
  end.

(** The index of the entry at position [j] with byte [b]. *)
Definition idx n (j : nat) (b : Z) : nat :=
  match n with N4 _ _ _ | N16 _ _ _ => j | _ => Z.to_nat b end.

Lemma ents_split : forall es1 b c es2, sortedE (es1 ++ (b, c) :: es2) ->
  (forall e, In e es1 -> fst e < b) /\ (forall e, In e es2 -> b < fst e).
Proof.
  intros es1 b c es2 S. destruct (sorted_app_inv _ _ _ S) as (_ & S2 & X).
  inversion S2 as [|? ? _ F]; subst. rewrite Forall_forall in F. split.
  - intros e He. apply (X e (b, c) He). now left.
  - intros e He. now apply (F e).
Qed.

Lemma ents_unique : forall es b c c', sortedE es -> In (b, c) es -> In (b, c') es -> c = c'.
Proof.
  induction es as [|e es IH]; intros b c c' S H H'; [easy|]. inversion S as [|? ? S' F]; subst.
  rewrite Forall_forall in F. destruct H as [->|H], H' as [E|H'].
  - congruence.
  - specialize (F _ H'). cbn in F. lia.
  - subst e. specialize (F _ H). cbn in F. lia.
  - eapply IH; eauto.
Qed.

(** Two sorted lists with the same entries are equal. *)
Lemma ents_ext : forall es es', sortedE es -> sortedE es' -> (forall e, In e es <-> In e es') -> es = es'.
Proof.
  induction es as [|e es IH]; intros [|e' es'] S S' H.
  - reflexivity.
  - destruct (proj2 (H e')); now left.
  - destruct (proj1 (H e)); now left.
  - inversion S as [|? ? S1 F]; inversion S' as [|? ? S1' F']; subst. rewrite Forall_forall in F, F'.
    assert (E : e = e').
    { destruct (proj1 (H e)) as [E|E]; [now left|now symmetry|].
      destruct (proj2 (H e')) as [E'|E']; [now left|exact E'|].
      specialize (F _ E'). specialize (F' _ E). lia. }
    subst e'. f_equal. apply IH; auto. intros x. split; intros Hx.
    + destruct (proj1 (H x)) as [E|E]; [now right| |exact E]. subst x. specialize (F _ Hx). lia.
    + destruct (proj2 (H x)) as [E|E]; [now right| |exact E]. subst x. specialize (F' _ Hx). lia.
Qed.

Lemma pickWith_nth : forall {R} (d : R) (f : C -> R) l i,
  pickWith d f l i = match nth i l None with Some c => f c | None => d end.
Proof. intros R d f. induction l as [|[c|] l IH]; intros [|i]; cbn; auto. Qed.

Lemma withKid_kid : forall {R} (d : R) (f : C -> R) n i,
  withKid d f n i = match kid n i with Some c => f c | None => d end.
Proof.
  intros R d f n i. destruct n as [l k cs|l k cs|l k cs|l cs]; unfold withKid, kid;
    rewrite ?pickWith_nth; try reflexivity.
  now destruct (nth i k 0 =? 0).
Qed.

Lemma arr_nth : forall cap lth keys cs es1 b c es2, Arr cap lth keys cs (es1 ++ (b, c) :: es2) ->
  nth (length es1) keys 0 = b /\ nth (length es1) cs None = Some c.
Proof.
  intros cap lth keys cs es1 b c es2 (_ & _ & -> & ->). rewrite !map_app. cbn [map]. rewrite <- !app_assoc. cbn [app].
  split.
  - rewrite <- (map_length fst es1). apply nth_app_at.
  - rewrite <- (map_length (fun e : Z * C => Some (snd e)) es1). apply nth_app_at.
Qed.

Lemma arr_beyond : forall cap lth keys cs es i, Arr cap lth keys cs es -> (length es <= i)%nat -> nth i cs None = None.
Proof.
  intros cap lth keys cs es i (_ & _ & _ & ->) H.
  rewrite app_nth2 by (rewrite map_length; lia).
  destruct (Nat.lt_ge_cases (i - length (map (fun e : Z * C => Some (snd e)) es)) (cap - length es)) as [L|L].
  - apply nth_repeat.
  - apply nth_overflow. rewrite repeat_length. exact L.
Qed.

Lemma kid_at : forall n es1 b c es2, Ents n (es1 ++ (b, c) :: es2) -> kid n (idx n (length es1) b) = Some c.
Proof.
  intros n es1 b c es2 (S & B & H). unfold bytesE in B. rewrite Forall_forall in B.
  assert (Hb : 0 <= b < 256) by (apply (B (b, c)), in_or_app; right; now left).
  assert (I : In (b, c) (es1 ++ (b, c) :: es2)) by (apply in_or_app; right; now left).
  destruct n as [l k cs|l k cs|l k cs|l cs]; cbn [idx].
  - now apply arr_nth in H.
  - now apply arr_nth in H.
  - destruct H as (_ & _ & _ & _ & _ & _ & H). now apply H.
  - destruct H as (_ & _ & H). now apply H.
Qed.

Lemma kid_byte : forall n es b c, Ents n es -> (match n with N48 _ _ _ | N256 _ _ => True | _ => False end) ->
  0 <= b < 256 -> (In (b, c) es <-> kid n (Z.to_nat b) = Some c).
Proof.
  intros n es b c (S & B & H) K Hb. destruct n as [l k cs|l k cs|l k cs|l cs]; try easy.
  - destruct H as (_ & _ & _ & _ & _ & _ & H). now apply H.
  - destruct H as (_ & _ & H). now apply H.
Qed.

(** ** child *)
Lemma child_in : forall n es1 b c es2, Ents n (es1 ++ (b, c) :: es2) -> child n b = Some (idx n (length es1) b).
Proof.
  intros n es1 b c es2 E. pose proof (kid_at _ _ _ _ _ E) as K. destruct E as (S & B & H).
  destruct (ents_split _ _ _ _ S) as (Lo & Hi).
  assert (AR : forall cap lth keys cs, Arr cap lth keys cs (es1 ++ (b, c) :: es2) ->
     findIdx (fun x => x =? b) 0 keys = Some (length es1)).
  { intros cap lth keys cs (_ & _ & -> & _). rewrite map_app. cbn [map fst]. rewrite <- app_assoc. cbn [app].
    rewrite findIdx_split; [now rewrite map_length| |apply Z.eqb_refl].
    apply Forall_forall. intros x Hx. apply in_map_iff in Hx as (e & <- & He). apply Z.eqb_neq. specialize (Lo _ He). lia. }
  destruct n as [l k cs|l k cs|l k cs|l cs]; cbn [idx] in *; unfold child.
  - rewrite (AR _ _ _ _ H), K. reflexivity.
  - rewrite (AR _ _ _ _ H), K. reflexivity.
  - rewrite K. reflexivity.
  - rewrite K. reflexivity.
Qed.

Lemma arr_split_or : forall cap lth keys cs es i, Arr cap lth keys cs es ->
  (exists es1 b c es2, es = es1 ++ (b, c) :: es2 /\ i = length es1) \/ nth i cs None = None.
Proof.
  intros cap lth keys cs es i A. destruct (Nat.lt_ge_cases i (length es)) as [L|L].
  - destruct (nth_error es i) as [[b c]|] eqn:E; [|apply nth_error_None in E; lia].
    left. apply nth_error_split in E as (es1 & es2 & -> & <-). now exists es1, b, c, es2.
  - right. eapply arr_beyond; eauto.
Qed.

Lemma child_notin : forall n es b, Ents n es -> 0 <= b < 256 -> (forall c, ~ In (b, c) es) -> child n b = None.
Proof.
  intros n es b E Hb N. destruct E as (S & B & H).
  assert (AR : forall cap lth keys cs i, Arr cap lth keys cs es -> findIdx (fun x => x =? b) 0 keys = Some i -> nth i cs None = None).
  { intros cap lth keys cs i A F. destruct (arr_split_or _ _ _ _ _ i A) as [(es1 & b' & c & es2 & -> & ->)|K]; [|exact K].
    exfalso. destruct (findIdx_Some _ _ _ _ 0 F) as (_ & X & _). rewrite Nat.sub_0_r in X. apply Z.eqb_eq in X.
    destruct (arr_nth _ _ _ _ _ _ _ _ A) as (Y & _). rewrite X in Y. subst b'. apply (N c), in_or_app. right. now left. }
  destruct n as [l k cs|l k cs|l k cs|l cs]; unfold child.
  - destruct (findIdx _ 0 k) as [i|] eqn:F; [|reflexivity]. unfold kid, kids. now rewrite (AR _ _ _ _ _ H F).
  - destruct (findIdx _ 0 k) as [i|] eqn:F; [|reflexivity]. unfold kid, kids. now rewrite (AR _ _ _ _ _ H F).
  - destruct (kid (N48 l k cs) (Z.to_nat b)) as [c|] eqn:K; [|reflexivity]. exfalso.
    destruct H as (_ & _ & _ & _ & _ & _ & H). apply (N c). now apply H.
  - destruct (kid (N256 l cs) (Z.to_nat b)) as [c|] eqn:K; [|reflexivity]. exfalso.
    destruct H as (_ & _ & H). apply (N c). now apply H.
Qed.

(** ** The scans *)
Lemma findIdx_pad : forall (g : Z -> bool) es (cap : nat), Forall (fun e => g (fst e) = false) es -> (length es <= cap)%nat ->
  match findIdx g 0 (map fst es ++ repeat 0 (cap - length es)) with
  | Some i => (length es <= i)%nat
  | None => True
  end.
Proof.
  intros g es m F L. destruct (findIdx g 0 _) as [i|] eqn:E; [|exact I].
  destruct (findIdx_Some _ _ _ _ 0 E) as (R & T & _). rewrite Nat.sub_0_r in T.
  destruct (Nat.lt_ge_cases i (length es)) as [L'|L']; [|exact L']. exfalso.
  rewrite app_nth1 in T by (rewrite map_length; exact L').
  rewrite Forall_forall in F. destruct (nth_error es i) as [e|] eqn:X; [|apply nth_error_None in X; lia].
  rewrite (nth_error_nth (map fst es) i 0 (x := fst e)) in T by (erewrite map_nth_error by exact X; reflexivity).
  rewrite (F e) in T by (eapply nth_error_In; eauto). discriminate.
Qed.

Definition test (f : option (Z -> bool)) (b : Z) : bool := match f with None => true | Some g => g b end.

Lemma scan_up : forall (f : option (Z -> bool)) {A} (live : A -> bool) (l : list A) (n : inode) es1 es2,
  (match n with N48 _ _ _ | N256 _ _ => True | _ => False end) ->
  Ents n (es1 ++ es2) -> length l = 256%nat ->
  (forall j d, (j < 256)%nat -> live (nth j l d) = some (kid n j)) ->
  Forall (fun e => test f (fst e) = false) es1 ->
  (match es2 with [] => True | e :: _ => test f (fst e) = true end) ->
  hit n (withIdx (findIdx (fun bc => (match f with None => true | Some g => g (Z.of_nat (fst bc)) end) && live (snd bc))
                    0 (indexed 0 l))) =
  match es2 with [] => None | (b, c) :: _ => Some (b, idx n (length es1) b) end.
Proof.
  intros f A live l n es1 es2 K E L Lv F1 F2.
  set (P := fun bc : nat * A => _).
  assert (PT : forall j d, (j < 256)%nat -> P (j, nth j l d) = true -> exists c, In (Z.of_nat j, c) (es1 ++ es2) /\ test f (Z.of_nat j) = true).
  { intros j d Hj T. unfold P in T. cbn [fst snd] in T. apply andb_true_iff in T as (T1 & T2). rewrite Lv in T2 by exact Hj.
    destruct (kid n j) as [c|] eqn:Kj; [|discriminate]. exists c. split; [|exact T1].
    apply (kid_byte n _ _ _ E K); [lia|]. now rewrite Nat2Z.id. }
  destruct es2 as [|[b c] es2].
  - rewrite findIdx_none; [reflexivity|]. apply Forall_forall. intros p Hp.
    destruct (P p) eqn:T; [|reflexivity]. exfalso.
    destruct l as [|a0 l0]; [easy|]. destruct (indexed_elem _ _ _ a0 Hp) as (j & Hj & ->). rewrite L in Hj.
    cbn [Nat.add] in T. destruct (PT j a0 Hj T) as (c & Hin & Tb). rewrite app_nil_r in Hin.
    rewrite Forall_forall in F1. specialize (F1 _ Hin). cbn [fst] in F1. congruence.
  - assert (B := proj1 (proj2 E)). unfold bytesE in B. rewrite Forall_forall in B.
    assert (Hb : 0 <= b < 256) by (apply (B (b, c)), in_or_app; right; now left).
    destruct l as [|a0 l0] eqn:El; [discriminate|]. rewrite <- El in *. clear El l0.
    assert (Hjl : (Z.to_nat b < length l)%nat) by lia.
    pose proof (kid_at _ _ _ _ _ E) as Kb.
    assert (Ib : idx n (length es1) b = Z.to_nat b) by (destruct n; easy).
    rewrite Ib in Kb.
    destruct (split_nth l (Z.to_nat b) a0 Hjl) as (l1 & l2 & El & Ll). 
    assert (FI : findIdx P 0 (indexed 0 l) = Some (Z.to_nat b)).
    { rewrite El, indexed_split. cbn [indexed]. rewrite findIdx_split.
      - rewrite indexed_length, Ll. reflexivity.
      - apply Forall_forall. intros p Hp. destruct (P p) eqn:T; [|reflexivity]. exfalso.
        destruct (indexed_elem _ _ _ a0 Hp) as (j & Hj & ->). cbn [Nat.add] in T.
        assert (Ej : nth j l1 a0 = nth j l a0) by (rewrite El, app_nth1 by exact Hj; reflexivity).
        rewrite Ej in T. destruct (PT j a0 ltac:(lia) T) as (c' & Hin & Tb).
        apply in_app_or in Hin as [Hin|Hin].
        + rewrite Forall_forall in F1. specialize (F1 _ Hin). cbn [fst] in F1. congruence.
        + destruct (ents_split _ _ _ _ (proj1 E)) as (_ & Hi). destruct Hin as [Hin|Hin].
          * injection Hin as Hb' _. lia.
          * specialize (Hi _ Hin). cbn in Hi. lia.
      - rewrite Ll. unfold P. cbn [Nat.add fst snd]. rewrite Z2Nat.id by lia. apply andb_true_iff. split; [exact F2|].
        rewrite (Lv (Z.to_nat b) a0) by lia. now rewrite Kb. }
    rewrite FI. unfold withIdx, hit. rewrite Kb, Ib, Z2Nat.id by lia. reflexivity.
Qed.

Lemma scan_down : forall (f : option (Z -> bool)) {A} (live : A -> bool) (l : list A) (n : inode) es1 es2,
  (match n with N48 _ _ _ | N256 _ _ => True | _ => False end) ->
  Ents n (es1 ++ es2) -> length l = 256%nat ->
  (forall j d, (j < 256)%nat -> live (nth j l d) = some (kid n j)) ->
  Forall (fun e => test f (fst e) = false) es2 ->
  (forall es0 e, es1 = es0 ++ [e] -> test f (fst e) = true) ->
  hit n (withIdx (findLast (fun bc => (match f with None => true | Some g => g (Z.of_nat (fst bc)) end) && live (snd bc))
                    0 (indexed 0 l))) =
  match rev es1 with [] => None | (b, c) :: _ => Some (b, idx n (length es1 - 1) b) end.
Proof.
  intros f A live l n es1 es2 K E L Lv F2 F1.
  set (P := fun bc : nat * A => _).
  assert (PT : forall j d, (j < 256)%nat -> P (j, nth j l d) = true -> exists c, In (Z.of_nat j, c) (es1 ++ es2) /\ test f (Z.of_nat j) = true).
  { intros j d Hj T. unfold P in T. cbn [fst snd] in T. apply andb_true_iff in T as (T1 & T2). rewrite Lv in T2 by exact Hj.
    destruct (kid n j) as [c|] eqn:Kj; [|discriminate]. exists c. split; [|exact T1].
    apply (kid_byte n _ _ _ E K); [lia|]. now rewrite Nat2Z.id. }
  destruct es1 as [|e0 es1'] using rev_ind; [|clear IHes1'].
  - cbn [rev]. rewrite findLast_none; [reflexivity|]. apply Forall_forall. intros p Hp.
    destruct (P p) eqn:T; [|reflexivity]. exfalso.
    destruct l as [|a0 l0]; [easy|]. destruct (indexed_elem _ _ _ a0 Hp) as (j & Hj & ->). rewrite L in Hj.
    cbn [Nat.add] in T. destruct (PT j a0 Hj T) as (c & Hin & Tb). cbn in Hin.
    rewrite Forall_forall in F2. specialize (F2 _ Hin). cbn [fst] in F2. congruence.
  - destruct e0 as [b c]. rewrite rev_unit. rewrite <- app_assoc in E, PT. cbn [app] in E, PT.
    assert (B := proj1 (proj2 E)). unfold bytesE in B. rewrite Forall_forall in B.
    assert (Hb : 0 <= b < 256) by (apply (B (b, c)), in_or_app; right; now left).
    destruct l as [|a0 l0] eqn:El; [discriminate|]. rewrite <- El in *. clear El l0.
    assert (Hjl : (Z.to_nat b < length l)%nat) by lia.
    pose proof (kid_at _ _ _ _ _ E) as Kb.
    assert (Ib : forall m, idx n m b = Z.to_nat b) by (intros m; destruct n; easy).
    rewrite Ib in Kb.
    destruct (split_nth l (Z.to_nat b) a0 Hjl) as (l1 & l2 & El & Ll).
    assert (FI : findLast P 0 (indexed 0 l) = Some (Z.to_nat b)).
    { rewrite El, indexed_split. cbn [indexed]. rewrite findLast_split.
      - rewrite indexed_length, Ll. reflexivity.
      - apply Forall_forall. intros p Hp. destruct (P p) eqn:T; [|reflexivity]. exfalso.
        destruct (indexed_elem _ _ _ a0 Hp) as (j & Hj & ->). cbn [Nat.add] in T.
        assert (Hlen : length l = (length l1 + S (length l2))%nat) by (rewrite El at 1; rewrite app_length; reflexivity).
        assert (Ej : nth j l2 a0 = nth (S (length l1 + j)) l a0).
        { rewrite El, app_nth2 by lia. replace (S (length l1 + j) - length l1)%nat with (S j) by lia. reflexivity. }
        rewrite Ej in T. destruct (PT (S (length l1 + j))%nat a0 ltac:(lia) T) as (c' & Hin & Tb).
        destruct (ents_split _ _ _ _ (proj1 E)) as (Lo & _).
        apply in_app_or in Hin as [Hin|[Hin|Hin]].
        + specialize (Lo _ Hin). cbn in Lo. lia.
        + injection Hin as Hb' _. lia.
        + rewrite Forall_forall in F2. specialize (F2 _ Hin). cbn [fst] in F2. congruence.
      - rewrite Ll. unfold P. cbn [Nat.add fst snd]. rewrite Z2Nat.id by lia. apply andb_true_iff. split.
        + apply (F1 es1' (b, c)). reflexivity.
        + rewrite (Lv (Z.to_nat b) a0) by lia. now rewrite Kb. }
    rewrite FI. unfold withIdx, hit. rewrite Kb, Ib, Z2Nat.id by lia. reflexivity.
Qed.

Lemma live48 : forall lth keys cs es, Tab48 lth keys cs es ->
  forall j d, (j < 256)%nat -> negb (nth j keys d =? 0) = some (kid (N48 lth keys cs) j).
Proof.
  intros lth keys cs es (_ & L & _ & _ & V & _ & _) j d Hj. rewrite (nth_indep keys d 0) by lia.
  unfold kid. destruct (Z.eqb_spec (nth j keys 0) 0) as [E|E]; cbn [negb]; [reflexivity|].
  destruct (V j E) as (_ & X). unfold slot. destruct (nth _ cs None); [reflexivity|]. easy.
Qed.

Lemma upwards_spec : forall n (f : option (Z -> bool)) es1 es2, Ents n (es1 ++ es2) ->
  Forall (fun e => test f (fst e) = false) es1 ->
  (match es2 with [] => True | e :: _ => test f (fst e) = true end) ->
  upwards n f = match es2 with [] => None | (b, c) :: _ => Some (b, idx n (length es1) b) end.
Proof.
  intros n f es1 es2 E F1 F2.
  assert (AR : forall cap lth keys cs, (forall i, kid n i = nth i cs None) -> (forall j b, idx n j b = j) -> (0 < cap)%nat ->
    Arr cap lth keys cs (es1 ++ es2) ->
    hit n (match f with None => Some (nth 0 keys 0, 0%nat) | Some g => withKey keys (findIdx g 0 keys) end) =
    match es2 with [] => None | (b, c) :: _ => Some (b, idx n (length es1) b) end).
  { intros cap lth keys cs Kn In Hc A. destruct es2 as [|[b c] es2].
    - rewrite app_nil_r in A. destruct f as [g|].
      + pose proof A as (_ & Lc & Ek & _). pose proof (findIdx_pad g es1 cap F1 Lc) as P. rewrite <- Ek in P.
        destruct (findIdx g 0 keys) as [i|]; cbn [withKey hit]; [|reflexivity].
        rewrite Kn, (arr_beyond _ _ _ _ _ _ A P). reflexivity.
      + destruct es1 as [|e es1]; [|inversion F1; discriminate]. cbn [hit]. rewrite Kn, (arr_beyond _ _ _ _ _ 0%nat A) by (cbn; lia). reflexivity.
    - destruct (arr_nth _ _ _ _ _ _ _ _ A) as (Xk & Xc). rewrite In. destruct f as [g|].
      + pose proof A as (_ & Lc & Ek & _). rewrite Ek. rewrite map_app. cbn [map fst]. rewrite <- app_assoc. cbn [app].
        rewrite findIdx_split.
        * rewrite map_length. cbn [withKey Nat.add hit]. rewrite Kn, Xc. f_equal. f_equal.
          rewrite <- (map_length fst es1). apply nth_app_at.
        * apply Forall_forall. intros x Hx. apply in_map_iff in Hx as (e & <- & He). rewrite Forall_forall in F1. now apply F1.
        * exact F2.
      + destruct es1 as [|e es1]; [|inversion F1; discriminate]. cbn [hit]. cbn [length] in Xk, Xc. rewrite Kn, Xc, Xk. reflexivity. }
  pose proof E as (S & B & H).
  destruct n as [l k cs|l k cs|l k cs|l cs]; unfold upwards.
  - apply (AR 4%nat l k cs); auto.
  - apply (AR 16%nat l k cs); auto. lia.
  - pose proof (live48 _ _ _ _ H) as Lv. pose proof H as (_ & L & _).
    apply (scan_up f (fun w => negb (w =? 0)) k (N48 l k cs)); auto.
  - pose proof H as (_ & L & _).
    apply (scan_up f some cs (N256 l cs)); auto. intros j d Hj. unfold kid, kids. rewrite (nth_indep cs d None) by lia. reflexivity.
Qed.

Lemma downwards_spec : forall n (f : option (Z -> bool)) es1 es2, Ents n (es1 ++ es2) ->
  Forall (fun e => test f (fst e) = false) es2 ->
  (forall es0 e, es1 = es0 ++ [e] -> test f (fst e) = true) ->
  downwards n f = match rev es1 with [] => None | (b, c) :: _ => Some (b, idx n (length es1 - 1) b) end.
Proof.
  intros n f es1 es2 E F2 F1.
  assert (AR : forall cap lth keys cs, (forall i, kid n i = nth i cs None) -> (forall j b, idx n j b = j) ->
    Arr cap lth keys cs (es1 ++ es2) ->
    hit n (match f with None => Some (nth (lth - 1) keys 0, (lth - 1)%nat) | Some g => withKey keys (findLast g 0 (firstn lth keys)) end) =
    match rev es1 with [] => None | (b, c) :: _ => Some (b, idx n (length es1 - 1) b) end).
  { intros cap lth keys cs Kn In A.
    assert (Ef : firstn lth keys = map fst (es1 ++ es2)).
    { destruct A as (-> & _ & -> & _). rewrite <- (map_length fst (es1 ++ es2)). apply firstn_app_at. }
    destruct es1 as [|[b c] es1] using rev_ind; [|clear IHes1].
    - cbn [rev app] in *. destruct f as [g|].
      + rewrite Ef, findLast_none; [reflexivity|]. apply Forall_forall. intros x Hx. apply in_map_iff in Hx as (e & <- & He).
        rewrite Forall_forall in F2. now apply F2.
      + destruct es2 as [|e es2]; [|inversion F2; discriminate]. cbn [hit]. rewrite Kn, (arr_beyond _ _ _ _ _ _ A) by (cbn; lia). reflexivity.
    - rewrite rev_unit. rewrite In. assert (E1 : (length (es1 ++ [(b, c)]) - 1 = length es1)%nat) by (rewrite app_length; cbn; lia).
      rewrite E1. rewrite <- app_assoc in A, Ef. cbn [app] in A, Ef.
      destruct (arr_nth _ _ _ _ _ _ _ _ A) as (Xk & Xc). destruct f as [g|].
      + rewrite Ef, map_app. cbn [map fst]. rewrite findLast_split.
        * rewrite map_length. cbn [withKey Nat.add hit]. rewrite Kn, Xc, Xk. reflexivity.
        * apply Forall_forall. intros x Hx. apply in_map_iff in Hx as (e & <- & He). rewrite Forall_forall in F2. now apply F2.
        * apply (F1 es1 (b, c)). reflexivity.
      + destruct es2 as [|e es2]; [|inversion F2; discriminate].
        assert (E2 : (lth - 1 = length es1)%nat) by (destruct A as (-> & _); rewrite app_length; cbn; lia).
        rewrite E2. cbn [hit]. rewrite Kn, Xc, Xk. reflexivity. }
  pose proof E as (S & B & H).
  destruct n as [l k cs|l k cs|l k cs|l cs]; unfold downwards.
  - apply (AR 4%nat l k cs); auto.
  - apply (AR 16%nat l k cs); auto.
  - pose proof (live48 _ _ _ _ H) as Lv. pose proof H as (_ & L & _).
    apply (scan_down f (fun w => negb (w =? 0)) k (N48 l k cs) es1 es2); auto.
  - pose proof H as (_ & L & _).
    apply (scan_down f some cs (N256 l cs) es1 es2); auto. intros j d Hj. unfold kid, kids. rewrite (nth_indep cs d None) by lia. reflexivity.
Qed.

(** Splitting a sorted list of entries at a byte. *)
Fixpoint below (k : Z) es := match es with [] => [] | e :: r => if fst e <? k then e :: below k r else [] end.
Fixpoint above (k : Z) es := match es with [] => [] | e :: r => if fst e <? k then above k r else e :: r end.
Lemma below_above : forall k es, below k es ++ above k es = es.
Proof. intros k. induction es as [|e es IH]; cbn; [reflexivity|]. destruct (fst e <? k); cbn; [now rewrite IH|reflexivity]. Qed.
Lemma below_lt : forall k es, Forall (fun e => fst e < k) (below k es).
Proof. intros k. induction es as [|e es IH]; cbn; [constructor|]. destruct (Z.ltb_spec (fst e) k); constructor; auto. Qed.
Lemma above_ge : forall k es, sortedE es -> Forall (fun e => k <= fst e) (above k es).
Proof.
  intros k. induction es as [|e es IH]; intros S; cbn; [constructor|]. inversion S as [|? ? S' F]; subst.
  destruct (Z.ltb_spec (fst e) k); [auto|]. constructor; [exact H|].
  eapply Forall_impl; [|exact F]. cbn. intros a Ha. lia.
Qed.

(** [next]: the first entry above a byte. *)
Lemma next_spec : forall n k es1 es2, Ents n (es1 ++ es2) -> Forall (fun e => fst e <= k) es1 -> Forall (fun e => k < fst e) es2 ->
  next n (Some k) = match es2 with [] => None | (b, c) :: _ => Some (b, idx n (length es1) b) end.
Proof.
  intros n k es1 es2 E F1 F2. unfold next. cbn [option_map]. apply upwards_spec; auto.
  - eapply Forall_impl; [|exact F1]. cbn. intros a Ha. apply Z.ltb_ge. exact Ha.
  - destruct es2 as [|e es2]; [exact I|]. inversion F2; subst. cbn. now apply Z.ltb_lt.
Qed.
Lemma next_first : forall n es, Ents n es ->
  next n None = match es with [] => None | (b, c) :: _ => Some (b, idx n 0 b) end.
Proof.
  intros n es E. unfold next. cbn [option_map]. apply (upwards_spec n None [] es); auto. destruct es; easy.
Qed.
Lemma gte_spec : forall n k es1 es2, Ents n (es1 ++ es2) -> Forall (fun e => fst e < k) es1 -> Forall (fun e => k <= fst e) es2 ->
  gte n k = match es2 with [] => None | (b, c) :: _ => Some (b, idx n (length es1) b) end.
Proof.
  intros n k es1 es2 E F1 F2. unfold gte. apply upwards_spec; auto.
  - eapply Forall_impl; [|exact F1]. cbn. intros a Ha. apply Z.leb_gt. exact Ha.
  - destruct es2 as [|e es2]; [exact I|]. inversion F2; subst. cbn. now apply Z.leb_le.
Qed.
Lemma prev_spec : forall n k es1 es2, Ents n (es1 ++ es2) -> Forall (fun e => fst e < k) es1 -> Forall (fun e => k <= fst e) es2 ->
  prev n (Some k) = match rev es1 with [] => None | (b, c) :: _ => Some (b, idx n (length es1 - 1) b) end.
Proof.
  intros n k es1 es2 E F1 F2. unfold prev. cbn [option_map]. eapply downwards_spec; eauto.
  - eapply Forall_impl; [|exact F2]. cbn. intros a Ha. apply Z.ltb_ge. exact Ha.
  - intros es0 e ->. apply Forall_app in F1 as (_ & F1). inversion F1; subst. cbn. now apply Z.ltb_lt.
Qed.
Lemma prev_last : forall n es, Ents n es ->
  prev n None = match rev es with [] => None | (b, c) :: _ => Some (b, idx n (length es - 1) b) end.
Proof.
  intros n es E. unfold prev. cbn [option_map]. apply (downwards_spec n None es []); auto. now rewrite app_nil_r.
Qed.
Lemma lte_spec : forall n k es1 es2, Ents n (es1 ++ es2) -> Forall (fun e => fst e <= k) es1 -> Forall (fun e => k < fst e) es2 ->
  lte n k = match rev es1 with [] => None | (b, c) :: _ => Some (b, idx n (length es1 - 1) b) end.
Proof.
  intros n k es1 es2 E F1 F2. unfold lte. eapply downwards_spec; eauto.
  - eapply Forall_impl; [|exact F2]. cbn. intros a Ha. apply Z.leb_gt. exact Ha.
  - intros es0 e ->. apply Forall_app in F1 as (_ & F1). inversion F1; subst. cbn. now apply Z.leb_le.
Qed.

End Nodes.
