(** The shape of the radix tree, and insertion and removal as operations on the
    sorted list of the leaves. *)
From Coq Require Import List ZArith Lia Bool Sorting.Sorted.
From Verif Require Import Base Art_Model Art_Node Art_Node2.
Import ListNotations.
Open Scope Z_scope.

(** ** Order of keys *)
Lemma bcmp_refl : forall a, bcmp a a = Eq.
Proof. induction a as [|x a IH]; cbn; [reflexivity|]. now rewrite Z.compare_refl. Qed.
Lemma bcmp_eq : forall a b, bcmp a b = Eq -> a = b.
Proof.
  induction a as [|x a IH]; intros [|y b] H; cbn in H; try discriminate; [reflexivity|].
  destruct (x ?= y) eqn:E; try discriminate. apply Z.compare_eq in E. subst. f_equal. now apply IH.
Qed.
Lemma bcmp_sym : forall a b, bcmp b a = CompOpp (bcmp a b).
Proof.
  induction a as [|x a IH]; intros [|y b]; cbn; try reflexivity.
  rewrite Z.compare_antisym. destruct (x ?= y); cbn; auto.
Qed.
Lemma bcmp_app : forall p a b, bcmp (p ++ a) (p ++ b) = bcmp a b.
Proof. induction p as [|x p IH]; intros; cbn; [reflexivity|]. rewrite Z.compare_refl. apply IH. Qed.
Lemma bcmp_trans : forall a b c, bcmp a b = Lt -> bcmp b c = Lt -> bcmp a c = Lt.
Proof.
  induction a as [|x a IH]; intros [|y b] [|z c] H1 H2; cbn in *; try discriminate; try reflexivity.
  destruct (Z.compare_spec x y), (Z.compare_spec y z), (Z.compare_spec x z); subst; try discriminate; try lia; auto.
  eapply IH; eauto.
Qed.
Lemma beqb_true : forall a b, beqb a b = true <-> a = b.
Proof.
  intros a b. unfold beqb. split; [|intros ->; now rewrite bcmp_refl]. intros H. apply bcmp_eq. now destruct (bcmp a b).
Qed.
Lemma beqb_false : forall a b, beqb a b = false <-> a <> b.
Proof. intros a b. rewrite <- beqb_true. destruct (beqb a b); split; congruence. Qed.

Definition klt (a b : leaf) : Prop := bcmp (lKey a) (lKey b) = Lt.
Definition prefix (p l : bytes) : Prop := exists r, l = p ++ r.

(** The path of a key ends with the byte 0. *)
Definition term (k : bytes) : bytes := k ++ [0].
Definition Bytes (k : bytes) : Prop := Forall (fun b => 0 <= b < 256) k.

Lemma term_split : forall k q b r, term k = q ++ b :: r ->
  (r = [] /\ b = 0 /\ k = q) \/ exists r', r = r' ++ [0] /\ k = q ++ b :: r'.
Proof.
  intros k q b r H. unfold term in H. destruct r as [|z r] using rev_ind; [left|right; clear IHr].
  - apply app_inj_tail in H as (-> & <-). auto.
  - rewrite app_comm_cons, app_assoc in H. apply app_inj_tail in H as (-> & <-). now exists r.
Qed.
Lemma term_bytes : forall k, Bytes k -> Bytes (term k).
Proof. intros k H. apply Forall_app. split; [exact H|]. constructor; [lia|constructor]. Qed.
Lemma term_inj : forall a b, term a = term b -> a = b.
Proof. intros a b H. now apply app_inj_tail in H. Qed.

Lemma path_lt : forall q b1 b2 k1 k2, prefix (q ++ [b1]) (term k1) -> prefix (q ++ [b2]) (term k2) -> 0 <= b1 < b2 ->
  bcmp k1 k2 = Lt.
Proof.
  intros q b1 b2 k1 k2 (r1 & H1) (r2 & H2) Hb. rewrite <- app_assoc in H1, H2. cbn in H1, H2.
  apply term_split in H1 as [(_ & _ & ->)|(r1' & _ & ->)]; apply term_split in H2 as [(_ & X & _)|(r2' & _ & ->)]; try lia.
  - rewrite <- (app_nil_r q) at 1. rewrite bcmp_app. reflexivity.
  - rewrite bcmp_app. cbn. destruct (Z.compare_spec b1 b2); try lia; reflexivity.
Qed.

Lemma prefix_app : forall p q l, prefix (p ++ q) l -> prefix p l.
Proof. intros p q l (r & ->). exists (q ++ r). now rewrite app_assoc. Qed.

(** ** The shape *)
Definition lo {C} (n : inode C) : nat := match n with N4 _ _ _ => 2 | N16 _ _ _ => 5 | N48 _ _ _ => 17 | N256 _ _ => 49 end.

Fixpoint prens (acc : nat) (es : list (Z * bnode)) (lss : list (list leaf)) : Prop :=
  match es, lss with
  | e :: es', ls :: lss' => prenOf (snd e) = acc /\ prens (acc + length ls) es' lss'
  | _, _ => True
  end.

Inductive Wf : bytes -> bnode -> list leaf -> Prop :=
| Wf_leaf p pren l : prefix p (term (lKey l)) -> Bytes (lKey l) -> Wf p (BLeaf pren l) [l]
| Wf_inner p pren comp ok sub nd es lss ls :
    Ents nd es -> (lo nd <= length es)%nat -> WfK (p ++ comp) es lss ->
    ls = concat lss -> sub = length ls -> (ok = true -> prens 0 es lss) ->
    Wf p (BInner pren comp ok sub nd) ls
with WfK : bytes -> list (Z * bnode) -> list (list leaf) -> Prop :=
| WfK_nil q : WfK q [] []
| WfK_cons q b c es ls lss : Wf (q ++ [b]) c ls -> WfK q es lss -> WfK q ((b, c) :: es) (ls :: lss).

Scheme Wf_mut := Induction for Wf Sort Prop with WfK_mut := Induction for WfK Sort Prop.
Combined Scheme Wf_mutind from Wf_mut, WfK_mut.

Lemma WfK_app : forall q es1 lss1 es2 lss2, WfK q es1 lss1 -> WfK q es2 lss2 -> WfK q (es1 ++ es2) (lss1 ++ lss2).
Proof. induction 1; intros; cbn; auto. constructor; auto. Qed.
Lemma WfK_split : forall q es1 es2 lss, WfK q (es1 ++ es2) lss ->
  exists lss1 lss2, lss = lss1 ++ lss2 /\ WfK q es1 lss1 /\ WfK q es2 lss2.
Proof.
  intros q. induction es1 as [|[b c] es1 IH]; intros es2 lss H; cbn in H.
  - exists [], lss. split; [reflexivity|]. split; [constructor|exact H].
  - inversion H as [|? ? ? ? ls lss' W WK]; subst. destruct (IH _ _ WK) as (l1 & l2 & -> & W1 & W2).
    exists (ls :: l1), l2. split; [reflexivity|]. split; [now constructor|exact W2].
Qed.
Lemma WfK_split1 : forall q es1 b c es2 lss, WfK q (es1 ++ (b, c) :: es2) lss ->
  exists lss1 ls lss2, lss = lss1 ++ ls :: lss2 /\ WfK q es1 lss1 /\ Wf (q ++ [b]) c ls /\ WfK q es2 lss2.
Proof.
  intros q es1 b c es2 lss H. destruct (WfK_split _ _ _ _ H) as (l1 & l2 & -> & W1 & W2).
  inversion W2; subst. do 3 eexists. eauto.
Qed.
Lemma WfK_length : forall q es lss, WfK q es lss -> length es = length lss.
Proof. induction 1; cbn; auto. Qed.

Lemma Wf_nonempty : (forall p b ls, Wf p b ls -> ls <> []) /\ (forall q es lss, WfK q es lss -> Forall (fun l => l <> []) lss).
Proof.
  apply Wf_mutind; intros; subst; try easy.
  - inversion w as [|? b c es' l1 lss' ? ?]; subst; [cbn in *; destruct nd; cbn in *; lia|].
    inversion H as [|? ? Hne _]; subst. destruct l1; [easy|]. cbn. easy.
  - constructor; auto.
Qed.
Definition Wf_ne := proj1 Wf_nonempty.

Lemma concat_length_ge : forall {A} (lss : list (list A)), Forall (fun l => l <> []) lss -> (length lss <= length (concat lss))%nat.
Proof.
  induction lss as [|l lss IH]; intros F; cbn; [lia|]. inversion F; subst. rewrite app_length. destruct l; [easy|]. cbn. specialize (IH H2). lia.
Qed.

(** A child has fewer leaves than its parent. *)
Lemma kid_smaller : forall q es1 (b : Z) (c : bnode) es2 lss1 ls lss2, (2 <= length (es1 ++ (b, c) :: es2))%nat ->
  WfK q es1 lss1 -> Wf (q ++ [b]) c ls -> WfK q es2 lss2 ->
  (length ls < length (concat (lss1 ++ ls :: lss2)))%nat.
Proof.
  intros q es1 b c es2 lss1 ls lss2 L W1 W W2.
  pose proof (proj2 Wf_nonempty _ _ _ W1) as F1. pose proof (proj2 Wf_nonempty _ _ _ W2) as F2.
  apply concat_length_ge in F1, F2. rewrite <- (WfK_length _ _ _ W1) in F1. rewrite <- (WfK_length _ _ _ W2) in F2.
  rewrite concat_app, app_length. cbn. rewrite app_length. rewrite app_length in L. cbn in L. lia.
Qed.

(** Induction over the tree. *)
Lemma Wf_rec : forall (P : bytes -> bnode -> list leaf -> Prop),
  (forall p pren l, prefix p (term (lKey l)) -> Bytes (lKey l) -> P p (BLeaf pren l) [l]) ->
  (forall p pren comp ok sub nd es lss,
     Ents nd es -> (lo nd <= length es)%nat -> WfK (p ++ comp) es lss ->
     sub = length (concat lss) -> (ok = true -> prens 0 es lss) ->
     (forall es1 b c es2 lss1 ls lss2, es = es1 ++ (b, c) :: es2 -> lss = lss1 ++ ls :: lss2 ->
        WfK (p ++ comp) es1 lss1 -> Wf ((p ++ comp) ++ [b]) c ls -> WfK (p ++ comp) es2 lss2 -> P ((p ++ comp) ++ [b]) c ls) ->
     P p (BInner pren comp ok sub nd) (concat lss)) ->
  forall p b ls, Wf p b ls -> P p b ls.
Proof.
  intros P HL HI. assert (X : forall m p b ls, (length ls < m)%nat -> Wf p b ls -> P p b ls).
  { induction m as [|m IH]; intros p b ls Lt W; [lia|]. inversion W as [? ? l H1 H2|? pren comp ok sub nd es lss ? E Lo WK El Es Pr]; subst.
    - now apply HL.
    - apply HI with (es := es); auto. intros es1 b c es2 lss1 ls lss2 -> -> W1 W2 W3. apply IH; [|exact W2].
      assert (L2 : (2 <= length (es1 ++ (b, c) :: es2))%nat) by (destruct nd; cbn in Lo; lia).
      pose proof (kid_smaller _ _ _ _ _ _ _ _ L2 W1 W2 W3). lia. }
  intros p b ls W. apply (X (S (length ls))); [lia|exact W].
Qed.

Lemma two_kids : forall {C} (nd : inode C) (es : list (Z * C)), (lo nd <= length es)%nat -> (2 <= length es)%nat.
Proof. intros C [] es H; cbn in H; lia. Qed.

Lemma Wf_path : (forall p b ls, Wf p b ls -> Forall (fun l => prefix p (term (lKey l)) /\ Bytes (lKey l)) ls) /\
  (forall q es lss, WfK q es lss ->
     Forall2 (fun e ls => Forall (fun l => prefix (q ++ [fst e]) (term (lKey l)) /\ Bytes (lKey l)) ls) es lss).
Proof.
  apply Wf_mutind; intros; subst.
  - constructor; auto.
  - apply Forall_forall. intros lf Hl. apply in_concat in Hl as (ls & Hls & Hl).
    assert (X : exists e, In e es /\ Forall (fun l => prefix ((p ++ comp) ++ [fst e]) (term (lKey l)) /\ Bytes (lKey l)) ls).
    { clear -H Hls. induction H as [|e l0 es lss X F IH]; [easy|]. destruct Hls as [->|Hls]; [exists e; split; [now left|exact X]|].
      destruct (IH Hls) as (e' & He' & Y). exists e'. split; [now right|exact Y]. }
    destruct X as (x & _ & F). rewrite Forall_forall in F. destruct (F _ Hl) as (F1 & F2). split; [|exact F2].
    rewrite <- app_assoc in F1. now apply prefix_app in F1.
  - constructor.
  - constructor; auto.
Qed.

Lemma WfK_path : forall q es lss, WfK q es lss -> forall l, In l (concat lss) ->
  exists e, In e es /\ prefix (q ++ [fst e]) (term (lKey l)) /\ Bytes (lKey l).
Proof.
  intros q es lss W. pose proof (proj2 Wf_path _ _ _ W) as F. clear W. induction F as [|e ls es lss X F IH]; intros l Hl; [easy|].
  cbn in Hl. apply in_app_or in Hl as [Hl|Hl].
  - rewrite Forall_forall in X. destruct (X _ Hl) as (X1 & X2). exists e. split; [now left|now split].
  - destruct (IH _ Hl) as (e' & He & Y). exists e'. split; [now right|exact Y].
Qed.

(** The leaves of the kids with smaller bytes come before a key below the byte [k]. *)
Lemma kids_lt : forall q es lss k key, bytesE es -> WfK q es lss -> Forall (fun e => fst e < k) es -> prefix (q ++ [k]) (term key) ->
  Forall (fun l => bcmp (lKey l) key = Lt) (concat lss).
Proof.
  intros q es lss k key B W F Hp. apply Forall_forall. intros l Hl.
  destruct (WfK_path _ _ _ W _ Hl) as (e & He & Pe & _). unfold bytesE in B. rewrite Forall_forall in F, B.
  apply (path_lt q (fst e) k); auto. split; [apply B, He|now apply F].
Qed.
Lemma kids_gt : forall q es lss k key, 0 <= k -> WfK q es lss -> Forall (fun e => k < fst e) es -> prefix (q ++ [k]) (term key) ->
  Forall (fun l => bcmp key (lKey l) = Lt) (concat lss).
Proof.
  intros q es lss k key B W F Hp. apply Forall_forall. intros l Hl.
  destruct (WfK_path _ _ _ W _ Hl) as (e & He & Pe & _). rewrite Forall_forall in F.
  apply (path_lt q k (fst e)); [exact Hp|exact Pe|]. split; [exact B|now apply F].
Qed.

Lemma Wf_sorted : forall p b ls, Wf p b ls -> StronglySorted klt ls.
Proof.
  apply Wf_rec.
  - intros. repeat constructor.
  - intros p pren comp ok sub nd es lss E Lo WK Es Pr IH.
    assert (X : forall es2 lss2 es1 lss1, es = es1 ++ es2 -> lss = lss1 ++ lss2 -> WfK (p ++ comp) es1 lss1 -> WfK (p ++ comp) es2 lss2 ->
      StronglySorted klt (concat lss2)).
    { induction es2 as [|[b c] es2 IH2]; intros lss2 es1 lss1 Ee El W1 W2.
      - inversion W2; subst. constructor.
      - inversion W2 as [|? ? ? ? ls lss2' Wc Wr]; subst. cbn. apply sorted_app.
        + eapply IH; eauto.
        + apply (IH2 lss2' (es1 ++ [(b, c)]) (lss1 ++ [ls])); [now rewrite <- app_assoc|now rewrite <- app_assoc| |exact Wr].
          apply WfK_app; [exact W1|]. constructor; [exact Wc|constructor].
        + intros x y Hx Hy. unfold klt. destruct E as (S & B & _).
          destruct (ents_split _ _ _ _ S) as (_ & Hi).
          assert (Hb : 0 <= b) by (unfold bytesE in B; rewrite Forall_forall in B; apply (B (b, c)), in_or_app; right; now left).
          pose proof (proj1 Wf_path _ _ _ Wc) as Fc. rewrite Forall_forall in Fc. destruct (Fc _ Hx) as (Px & _).
          assert (G := kids_gt _ _ _ b (lKey x) Hb Wr ltac:(apply Forall_forall; exact Hi) Px). rewrite Forall_forall in G. now apply G. }
    apply (X es lss [] []); auto. constructor.
Qed.

(** ** The list of leaves *)
Fixpoint lput (lf : leaf) (ls : list leaf) : list leaf :=
  match ls with
  | [] => [lf]
  | l :: r => match bcmp (lKey lf) (lKey l) with Lt => lf :: l :: r | Eq => lf :: r | Gt => l :: lput lf r end
  end.
Fixpoint lget (k : bytes) (ls : list leaf) : option (leaf * nat) :=
  match ls with
  | [] => None
  | l :: r => if beqb k (lKey l) then Some (l, 0%nat) else option_map (fun p => (fst p, S (snd p))) (lget k r)
  end.
Definition ldel (k : bytes) (ls : list leaf) : list leaf := filter (fun l => negb (beqb k (lKey l))) ls.
Definition lhas (k : bytes) (ls : list leaf) : bool := existsb (fun l => beqb k (lKey l)) ls.

Lemma lput_before : forall lf l1 r, Forall (fun l => bcmp (lKey l) (lKey lf) = Lt) l1 -> lput lf (l1 ++ r) = l1 ++ lput lf r.
Proof.
  induction l1 as [|l l1 IH]; intros r F; cbn; [reflexivity|]. inversion F; subst.
  rewrite bcmp_sym, H1. cbn. now rewrite IH.
Qed.
Lemma lput_after : forall lf l2 ls, Forall (fun l => bcmp (lKey lf) (lKey l) = Lt) l2 -> lput lf (ls ++ l2) = lput lf ls ++ l2.
Proof.
  intros lf l2. induction ls as [|l ls IH]; intros F; cbn.
  - destruct l2 as [|l l2]; cbn; [reflexivity|]. inversion F; subst. now rewrite H1.
  - destruct (bcmp (lKey lf) (lKey l)); cbn; auto. now rewrite IH.
Qed.
Lemma lhas_app : forall k a b, lhas k (a ++ b) = lhas k a || lhas k b.
Proof. intros. apply existsb_app. Qed.
Lemma lhas_lt : forall k ls, Forall (fun l => bcmp (lKey l) k = Lt) ls -> lhas k ls = false.
Proof.
  intros k ls F. unfold lhas. destruct (existsb _ ls) eqn:E; [|reflexivity]. apply existsb_exists in E as (l & Hl & E).
  apply beqb_true in E. rewrite Forall_forall in F. specialize (F _ Hl). rewrite <- E, bcmp_refl in F. discriminate.
Qed.
Lemma lhas_gt : forall k ls, Forall (fun l => bcmp k (lKey l) = Lt) ls -> lhas k ls = false.
Proof.
  intros k ls F. unfold lhas. destruct (existsb _ ls) eqn:E; [|reflexivity]. apply existsb_exists in E as (l & Hl & E).
  apply beqb_true in E. rewrite Forall_forall in F. specialize (F _ Hl). rewrite <- E, bcmp_refl in F. discriminate.
Qed.

(** ** Two children *)
Lemma two_children : forall {C} b1 (c1 : C) b2 c2, 0 <= b1 < 256 -> 0 <= b2 < 256 -> b1 <> b2 ->
  exists n1 n2, addChild node4 b1 c1 = Ok n1 /\ addChild n1 b2 c2 = Ok n2 /\
    Ents n2 (if b1 <? b2 then [(b1, c1); (b2, c2)] else [(b2, c2); (b1, c1)]) /\ cap n2 = 4%nat.
Proof.
  intros C b1 c1 b2 c2 H1 H2 D.
  destruct (addChild_spec node4 [] [] b1 c1 node4_ents eq_refl H1 ltac:(constructor) ltac:(constructor)) as (n1 & A1 & E1 & K1).
  exists n1. cbn [app] in E1. assert (F1 : full n1 = false) by (rewrite full_lth, (ents_lth _ _ E1), K1; reflexivity).
  destruct (Z.ltb_spec b1 b2) as [L|L].
  - destruct (addChild_spec n1 [(b1, c1)] [] b2 c2 ltac:(exact E1) F1 H2 ltac:(repeat constructor; exact L) ltac:(constructor)) as (n2 & A2 & E2 & K2).
    exists n2. rewrite K1 in K2. auto.
  - destruct (addChild_spec n1 [] [(b1, c1)] b2 c2 ltac:(exact E1) F1 H2 ltac:(constructor) ltac:(repeat constructor; cbn; lia)) as (n2 & A2 & E2 & K2).
    exists n2. rewrite K1 in K2. auto.
Qed.

Lemma two_wf : forall q (b1 b2 : Z) c1 c2 ls1 ls2 pren comp p (nd : inode bnode), q = p ++ comp ->
  Ents nd (if b1 <? b2 then [(b1, c1); (b2, c2)] else [(b2, c2); (b1, c1)]) -> cap nd = 4%nat ->
  Wf (q ++ [b1]) c1 ls1 -> Wf (q ++ [b2]) c2 ls2 ->
  Wf p (BInner pren comp false (length ls1 + length ls2) nd) (if b1 <? b2 then ls1 ++ ls2 else ls2 ++ ls1).
Proof.
  intros q b1 b2 c1 c2 ls1 ls2 pren comp p nd -> E K W1 W2.
  eapply Wf_inner with (lss := if b1 <? b2 then [ls1; ls2] else [ls2; ls1]); [exact E| | | | |discriminate].
  - destruct nd; cbn in K; try discriminate. cbn. destruct (b1 <? b2); cbn; lia.
  - destruct (b1 <? b2); repeat (constructor; auto).
  - destruct (b1 <? b2); cbn; now rewrite app_nil_r.
  - destruct (b1 <? b2); rewrite app_length; lia.
Qed.

(** ** Insertion *)

(** The keys the tree can hold together: none continues another with a 0 byte. *)
Definition Apart (k1 k2 : bytes) : Prop := k1 = k2 \/ (~ prefix (term k1) k2 /\ ~ prefix (term k2) k1).

Lemma common_spec : forall a b, exists r1 r2, a = firstn (common a b) a ++ r1 /\ b = firstn (common a b) a ++ r2 /\
  (match r1, r2 with x :: _, y :: _ => x <> y | _, _ => True end) /\ (common a b <= length a)%nat /\ (common a b <= length b)%nat.
Proof.
  induction a as [|x a IH]; intros b; [exists [], b; cbn; repeat split; auto; lia|].
  destruct b as [|y b]; [exists (x :: a), []; cbn; repeat split; auto; lia|].
  cbn [common]. destruct (Z.eqb_spec x y) as [->|D].
  - destruct (IH b) as (r1 & r2 & E1 & E2 & M & L1 & L2). exists r1, r2. cbn [firstn app length]. repeat split.
    + now f_equal.
    + now f_equal.
    + exact M.
    + lia.
    + lia.
  - exists (x :: a), (y :: b). cbn. repeat split; auto; lia.
Qed.

Lemma firstn_skipn_nth : forall (l : bytes) m, (m < length l)%nat -> l = firstn m l ++ nth m l 0 :: skipn (S m) l.
Proof.
  induction l as [|x l IH]; intros [|m] H; cbn in *; try lia; [reflexivity|]. f_equal. apply IH. lia.
Qed.

Lemma At_app : forall p b r, At (p ++ b :: r) (length p) = b.
Proof. intros. apply nth_app_at. Qed.
Lemma At_end : forall k, At k (length k) = 0.
Proof. intros. apply nth_overflow. lia. Qed.
Lemma At_bytes : forall k i, Bytes k -> 0 <= At k i < 256.
Proof.
  intros k i H. unfold At. destruct (Nat.lt_ge_cases i (length k)) as [L|L].
  - unfold Bytes in H. rewrite Forall_forall in H. apply H. now apply nth_In.
  - rewrite nth_overflow by exact L. lia.
Qed.

(** The byte of the path at a position in the key or right after it. *)
Lemma term_At : forall k q, prefix q k -> prefix (q ++ [At k (length q)]) (term k).
Proof.
  intros k q (r & ->). destruct r as [|b r].
  - rewrite app_nil_r, At_end. exists []. now rewrite app_nil_r.
  - rewrite At_app. exists (r ++ [0]). unfold term. now rewrite <- !app_assoc.
Qed.

Lemma prefix_term_key : forall p k, prefix p (term k) -> p = term k \/ prefix p k.
Proof.
  intros p k (r & H). destruct r as [|b r]; [left; now rewrite app_nil_r in H|]. right.
  apply term_split in H as [(_ & _ & ->)|(r' & _ & ->)]; [exists []; now rewrite app_nil_r|]. now exists (b :: r').
Qed.

Lemma prefix_term_term : forall a k, prefix (term a) (term k) -> k = a \/ prefix (term a) k.
Proof. intros a k H. apply prefix_term_key in H as [H|H]; [left; symmetry; now apply term_inj|now right]. Qed.

(** No inner node lies on the path of a key that is apart from the leaves. *)
Lemma no_inner_at_term : forall ls key, (2 <= length ls)%nat -> StronglySorted klt ls ->
  Forall (fun l => Apart key (lKey l)) ls -> Forall (fun l => prefix (term key) (term (lKey l))) ls -> False.
Proof.
  intros ls key L S A P. destruct ls as [|l1 [|l2 ls]]; cbn in L; try lia.
  apply Forall_cons_iff in A as (A1 & A'); apply Forall_cons_iff in A' as (A2 & _); apply Forall_cons_iff in P as (P1 & P'); apply Forall_cons_iff in P' as (P2 & _).
  assert (X : forall l, Apart key (lKey l) -> prefix (term key) (term (lKey l)) -> lKey l = key).
  { intros l [E|(N & _)] Hp; [now symmetry|]. apply prefix_term_term in Hp as [E|E]; [exact E|easy]. }
  apply X in P1; [|exact A1]. apply X in P2; [|exact A2]. inversion S as [|? ? _ F]; subst. inversion F as [|? ? K _]; subst.
  unfold klt in K. rewrite P2, bcmp_refl in K. discriminate.
Qed.

Definition Inserted (lf : leaf) (p : bytes) (b : bnode) (ls : list leaf) : Prop :=
  prefix p (term (lKey lf)) -> Forall (fun l => Apart (lKey lf) (lKey l)) ls -> Forall (fun l => lId l <> lId lf) ls ->
  exists b', insert lf (length p) b = Ok (b', lhas (lKey lf) ls) /\ Wf p b' (lput lf ls) /\ prenOf b' = prenOf b.

Lemma insert_leaf : forall lf p pren l, Bytes (lKey lf) -> prefix p (term (lKey l)) -> Bytes (lKey l) -> Inserted lf p (BLeaf pren l) [l].
Proof.
  intros lf p pren l Bf Pl Bl Pf Ap Id. inversion Ap as [|? ? A _]; inversion Id as [|? ? I _]; subst. cbn [insert].
  destruct (Z.eqb_spec (lId l) (lId lf)); [easy|]. cbn [lhas existsb lput]. rewrite orb_false_r.
  destruct (beqb (lKey lf) (lKey l)) eqn:E.
  { apply beqb_true in E. rewrite E, bcmp_refl. eexists. split; [reflexivity|]. split; [|reflexivity]. constructor; [now rewrite E|exact Bf]. }
  apply beqb_false in E. assert (D : lKey l <> lKey lf) by congruence.
  destruct A as [A|(A1 & A2)]; [congruence|].
  assert (Hp : prefix p (lKey l) /\ prefix p (lKey lf)).
  { apply prefix_term_key in Pl as [Pl|Pl].
    - rewrite Pl in Pf. apply prefix_term_term in Pf as [?|?]; [congruence|easy].
    - apply prefix_term_key in Pf as [Pf|Pf]; [|auto]. rewrite Pf in Pl. easy. }
  destruct Hp as ((r1 & E1) & (r2 & E2)).
  unfold comparePrefix. rewrite E1, E2, !skipn_app_at.
  destruct (common_spec r1 r2) as (s1 & s2 & F1 & F2 & M & L1 & L2). remember (common r1 r2) as m eqn:Em. clear Em.
  remember (p ++ firstn m r1) as q eqn:Eq.
  assert (Lq : (length p + m = length q)%nat) by (rewrite Eq, app_length, firstn_length; lia).
  assert (E1' : lKey l = q ++ s1) by (rewrite Eq, <- app_assoc, <- F1; exact E1).
  assert (E2' : lKey lf = q ++ s2) by (rewrite Eq, <- app_assoc, <- F2; exact E2).
  rewrite <- E1, <- E2, Lq.
  assert (Dk : At (lKey l) (length q) <> At (lKey lf) (length q)).
  { rewrite E1', E2'. destruct s1 as [|x s1], s2 as [|y s2]; rewrite ?app_nil_r in *; rewrite ?At_end, ?At_app.
    - congruence.
    - intros <-. apply A2. rewrite E1', E2'. exists s2. unfold term. now rewrite <- app_assoc.
    - intros ->. apply A1. rewrite E1', E2'. exists s1. unfold term. now rewrite <- app_assoc.
    - exact M. }
  assert (B1 := At_bytes (lKey l) (length q) Bl). assert (B2 := At_bytes (lKey lf) (length q) Bf).
  destruct (two_children _ (BLeaf 0 l) _ (BLeaf 0 lf) B1 B2 Dk) as (n1 & n2 & X1 & X2 & En & Kn).
  unfold bind. rewrite X1, X2. eexists. split; [reflexivity|]. split; [|reflexivity].
  assert (P1 : prefix (q ++ [At (lKey l) (length q)]) (term (lKey l))) by (apply term_At; now exists s1).
  assert (P2 : prefix (q ++ [At (lKey lf) (length q)]) (term (lKey lf))) by (apply term_At; now exists s2).
  pose proof (two_wf q _ _ _ _ [l] [lf] pren (firstn m r1) p n2 Eq En Kn (Wf_leaf _ 0 l P1 Bl) (Wf_leaf _ 0 lf P2 Bf)) as W.
  cbn [length Nat.add app] in W. destruct (Z.ltb_spec (At (lKey l) (length q)) (At (lKey lf) (length q))) as [Lb|Lb].
  - pose proof (path_lt q _ _ _ _ P1 P2 ltac:(lia)) as X. rewrite bcmp_sym, X. exact W.
  - pose proof (path_lt q _ _ _ _ P2 P1 ltac:(lia)) as X. rewrite X. exact W.
Qed.

Lemma byte_cases : forall {C} (es : list (Z * C)) k, sortedE es ->
  (exists es1 c es2, es = es1 ++ (k, c) :: es2 /\ Forall (fun e => fst e < k) es1 /\ Forall (fun e => k < fst e) es2) \/
  (exists es1 es2, es = es1 ++ es2 /\ Forall (fun e => fst e < k) es1 /\ Forall (fun e => k < fst e) es2 /\ forall c, ~ In (k, c) es).
Proof.
  intros C es k S. pose proof (below_above k es) as E. pose proof (below_lt k es) as F1. pose proof (above_ge k es S) as F2.
  destruct (above k es) as [|[b c] es2] eqn:Ea.
  - right. exists (below k es), []. repeat split; auto. intros c Hc. rewrite app_nil_r in E. rewrite <- E in Hc.
    rewrite Forall_forall in F1. specialize (F1 _ Hc). cbn in F1. lia.
  - rewrite <- E in S. destruct (ents_split _ _ _ _ S) as (Lo & Hi). inversion F2 as [|? ? Fb _]; subst. cbn in Fb.
    destruct (Z.eq_dec b k) as [->|D].
    + left. exists (below k es), c, es2. repeat split; auto. now apply Forall_forall.
    + right. exists (below k es), ((b, c) :: es2). assert (G : Forall (fun e => k < fst e) ((b, c) :: es2)).
      { constructor; [cbn; lia|]. apply Forall_forall. intros e He. specialize (Hi _ He). lia. }
      repeat split; auto. intros c' Hc. rewrite <- E in Hc. rewrite Forall_forall in F1, G. apply in_app_or in Hc as [Hc|Hc].
      * specialize (F1 _ Hc). cbn in F1. lia.
      * specialize (G _ Hc). cbn in G. lia.
Qed.

Lemma lput_length : forall lf ls, StronglySorted klt ls ->
  length (lput lf ls) = if lhas (lKey lf) ls then length ls else S (length ls).
Proof.
  intros lf. induction ls as [|l ls IH]; intros S; [reflexivity|]. inversion S as [|? ? S' F]; subst. cbn [lput lhas existsb].
  unfold beqb at 1. destruct (bcmp (lKey lf) (lKey l)) eqn:E; cbn [orb length].
  - reflexivity.
  - change (existsb _ ls) with (lhas (lKey lf) ls). rewrite (lhas_gt (lKey lf) ls); [reflexivity|].
    eapply Forall_impl; [|exact F]. cbn. intros a Ha. eapply bcmp_trans; [exact E|exact Ha].
  - change (existsb _ ls) with (lhas (lKey lf) ls). rewrite IH by exact S'. now destruct (lhas (lKey lf) ls).
Qed.

Lemma prens_app : forall es1 lss1 es2 lss2 acc, length es1 = length lss1 ->
  (prens acc (es1 ++ es2) (lss1 ++ lss2) <-> prens acc es1 lss1 /\ prens (acc + length (concat lss1)) es2 lss2).
Proof.
  induction es1 as [|e es1 IH]; intros [|ls lss1] es2 lss2 acc H; cbn in H; try discriminate.
  - cbn. rewrite Nat.add_0_r. tauto.
  - cbn. rewrite IH by lia. rewrite app_length, Nat.add_assoc. tauto.
Qed.

Lemma leaves_two : forall q (nd : inode bnode) es lss, (lo nd <= length es)%nat -> WfK q es lss -> (2 <= length (concat lss))%nat.
Proof.
  intros q nd es lss Lo W. pose proof (concat_length_ge _ (proj2 Wf_nonempty _ _ _ W)) as G. rewrite <- (WfK_length _ _ _ W) in G.
  apply two_kids in Lo. lia.
Qed.

Lemma kids_path : forall q es lss, WfK q es lss -> Forall (fun l => prefix q (term (lKey l))) (concat lss).
Proof.
  intros q es lss W. apply Forall_forall. intros l Hl. destruct (WfK_path _ _ _ W _ Hl) as (e & _ & P & _). now apply prefix_app in P.
Qed.

Lemma Forall_prefix : forall q x ls, Forall (fun l => prefix (q ++ x) (term (lKey l))) ls -> Forall (fun l => prefix q (term (lKey l))) ls.
Proof. intros q x ls F. eapply Forall_impl; [|exact F]. cbn. intros a Ha. now apply prefix_app in Ha. Qed.

Lemma insert_inner : forall lf p pren comp ok sub nd es lss, Bytes (lKey lf) ->
  Ents nd es -> (lo nd <= length es)%nat -> WfK (p ++ comp) es lss ->
  sub = length (concat lss) -> (ok = true -> prens 0 es lss) ->
  (forall es1 b c es2 lss1 ls lss2, es = es1 ++ (b, c) :: es2 -> lss = lss1 ++ ls :: lss2 ->
     WfK (p ++ comp) es1 lss1 -> Wf ((p ++ comp) ++ [b]) c ls -> WfK (p ++ comp) es2 lss2 -> Inserted lf ((p ++ comp) ++ [b]) c ls) ->
  Inserted lf p (BInner pren comp ok sub nd) (concat lss).
Proof.
  intros lf p pren comp ok sub nd es lss Bf E Lo WK Es Pr IH Pf Ap Id.
  assert (W0 : Wf p (BInner pren comp ok sub nd) (concat lss)) by (eapply Wf_inner; eauto).
  pose proof (Wf_sorted _ _ _ W0) as Sd. pose proof (leaves_two _ _ _ _ Lo WK) as L2. pose proof (kids_path _ _ _ WK) as PK.
  assert (NT : forall x, (forall l, In l (concat lss) -> prefix x (term (lKey l))) -> x <> term (lKey lf)).
  { intros x Hx ->. apply (no_inner_at_term (concat lss) (lKey lf)); auto. now apply Forall_forall. }
  apply prefix_term_key in Pf as [Pf|(rest & Ek)].
  { exfalso. apply (NT p); [|exact Pf]. apply Forall_forall. eapply Forall_prefix; exact PK. }
  assert (Lk : length (lKey lf) = (length p + length rest)%nat) by (rewrite Ek; apply app_length).
  assert (Sk : skipn (length p) (lKey lf) = rest) by (rewrite Ek; apply skipn_app_at).
  cbn [insert]. unfold compressedMismatch. rewrite Lk, Sk.
  destruct (Nat.ltb_spec (length p + length rest) (length p)) as [X|_]; [lia|].
  destruct (common_spec comp rest) as (s1 & s2 & F1 & F2 & M & M1 & M2). remember (common comp rest) as m eqn:Em. clear Em.
  destruct (Z.ltb_spec (Z.of_nat m) 0) as [X|_]; [lia|]. rewrite Nat2Z.id.
  destruct (Nat.ltb_spec m (length comp)) as [Lm|Lm].
  - (* split the prefix *)
    pose proof (firstn_skipn_nth comp m Lm) as Ec. remember (firstn m comp) as f eqn:Ef. remember (nth m comp 0) as x eqn:Ex.
    remember (skipn (S m) comp) as s eqn:Ess. assert (Lf : length f = m) by (rewrite Ef, firstn_length; lia).
    assert (s1 = x :: s) as -> by (rewrite Ec in F1; now apply app_inv_head in F1).
    remember (p ++ f) as q eqn:Eq. assert (Lq : (length p + m = length q)%nat) by (rewrite Eq, app_length; lia).
    assert (Kq : lKey lf = q ++ s2) by (rewrite Eq, <- app_assoc, <- F2; exact Ek).
    assert (Pc : p ++ comp = (q ++ [x]) ++ s) by (rewrite Eq, Ec, <- !app_assoc; reflexivity).
    assert (PX : Forall (fun l => prefix (q ++ [x]) (term (lKey l))) (concat lss)) by (rewrite Pc in PK; eapply Forall_prefix; exact PK).
    rewrite Lq.
    assert (Dk : At (lKey lf) (length q) <> x).
    { rewrite Kq. destruct s2 as [|y s2]; [|rewrite At_app; congruence]. rewrite app_nil_r, At_end. intros <-.
      apply (NT (q ++ [0])); [now apply Forall_forall|]. rewrite Kq, app_nil_r. reflexivity. }
    assert (Bx : 0 <= x < 256).
    { destruct (concat lss) as [|l0 ls0] eqn:El; [cbn in L2; lia|]. apply Forall_cons_iff in PX as ((r & Er) & _).
      pose proof (proj1 Wf_path _ _ _ W0) as BF. apply Forall_cons_iff in BF as ((_ & Bl) & _). apply term_bytes in Bl. rewrite Er in Bl.
      unfold Bytes in Bl. rewrite Forall_forall in Bl. apply Bl. apply in_or_app. left. apply in_or_app. right. now left. }
    assert (P2 : prefix (q ++ [At (lKey lf) (length q)]) (term (lKey lf))) by (apply term_At; now exists s2).
    destruct (two_children _ (BLeaf 0 lf) _ (BInner 0 s false sub nd) (At_bytes _ (length q) Bf) Bx Dk) as (n1 & n2 & X1 & X2 & En & Kn).
    unfold bind. rewrite X1, X2. cbn [fst snd].
    assert (Wi : Wf (q ++ [x]) (BInner 0 s false sub nd) (concat lss)).
    { eapply Wf_inner; eauto; [|discriminate]. rewrite <- Pc. exact WK. }
    pose proof (two_wf q _ _ _ _ [lf] (concat lss) pren f p n2 Eq En Kn (Wf_leaf _ 0 lf P2 Bf) Wi) as W.
    rewrite <- Es in W. cbn [length Nat.add app] in W.
    destruct (Z.ltb_spec (At (lKey lf) (length q)) x) as [Lb|Lb].
    + assert (G : Forall (fun l => bcmp (lKey lf) (lKey l) = Lt) (concat lss)).
      { eapply Forall_impl; [|exact PX]. cbn. intros a Ha. apply (path_lt q _ _ _ _ P2 Ha). pose proof (At_bytes _ (length q) Bf). lia. }
      rewrite (lhas_gt _ _ G). pose proof (lput_after lf (concat lss) [] G) as Q. cbn [app lput] in Q. rewrite Q.
      eexists. split; [reflexivity|]. split; [exact W|reflexivity].
    + assert (G : Forall (fun l => bcmp (lKey l) (lKey lf) = Lt) (concat lss)).
      { eapply Forall_impl; [|exact PX]. cbn. intros a Ha. apply (path_lt q _ _ _ _ Ha P2). lia. }
      rewrite (lhas_lt _ _ G). pose proof (lput_before lf (concat lss) [] G) as Q. rewrite app_nil_r in Q. rewrite Q.
      eexists. split; [reflexivity|]. split; [exact W|reflexivity].
  - (* descend *)
    assert (m = length comp) as -> by lia. rewrite firstn_all in *.
    remember (p ++ comp) as q eqn:Eq. assert (Lq : (length p + length comp = length q)%nat) by (rewrite Eq, app_length; lia).
    assert (Kq : lKey lf = q ++ s2) by (rewrite Eq, <- app_assoc, <- F2; exact Ek). rewrite Lq.
    assert (P2 : prefix (q ++ [At (lKey lf) (length q)]) (term (lKey lf))) by (apply term_At; now exists s2).
    pose proof (At_bytes _ (length q) Bf) as Bk. remember (At (lKey lf) (length q)) as k eqn:Ekk. clear Ekk.
    destruct (byte_cases es k (proj1 E)) as [(es1 & c & es2 & -> & G1 & G2)|(es1 & es2 & -> & G1 & G2 & NI)].
    + rewrite (child_in _ _ _ _ _ E). rewrite withKid_kid, (kid_at _ _ _ _ _ E).
      destruct (WfK_split1 _ _ _ _ _ _ WK) as (lss1 & ls & lss2 & -> & W1 & Wc & W2).
      pose proof (proj1 (proj2 E)) as BE. apply Forall_app in BE as (BE & _).
      pose proof (kids_lt _ _ _ _ _ BE W1 G1 P2) as Hlt. pose proof (kids_gt _ _ _ _ _ (proj1 Bk) W2 G2 P2) as Hgt.
      rewrite concat_app in *. cbn [concat] in *. rewrite Forall_app in Ap, Id. rewrite Forall_app in Ap, Id.
      destruct (IH es1 k c es2 lss1 ls lss2 eq_refl eq_refl W1 Wc W2 P2 (proj1 (proj2 Ap)) (proj1 (proj2 Id))) as (c' & Hi & Wc' & Pc').
      replace (S (length q)) with (length (q ++ [k])) by (rewrite app_length; cbn; lia). rewrite Hi. unfold bind.
      rewrite !lhas_app, (lhas_lt _ _ Hlt), (lhas_gt _ _ Hgt), orb_false_r. cbn [orb].
      rewrite (lput_before _ _ _ Hlt), (lput_after _ _ _ Hgt).
      assert (Sl : StronglySorted klt ls) by (eapply Wf_sorted; exact Wc). pose proof (lput_length lf ls Sl) as Ll.
      eexists. split; [reflexivity|]. split; [|reflexivity].
      eapply Wf_inner with (lss := lss1 ++ lput lf ls :: lss2).
      * apply replaceKid_spec with (c := c). exact E.
      * replace (lo (replaceKid nd (idx nd (length es1) k) c')) with (lo nd) by (destruct nd; reflexivity).
        rewrite app_length in *. exact Lo.
      * rewrite <- Eq. apply WfK_app; [exact W1|]. constructor; [exact Wc'|exact W2].
      * rewrite concat_app. reflexivity.
      * rewrite Es. rewrite !app_length. destruct (lhas (lKey lf) ls); lia.
      * destruct (lhas (lKey lf) ls); [|discriminate]. intros Ho. specialize (Pr Ho).
        apply prens_app in Pr as (Pr1 & Pr2); [|apply (WfK_length _ _ _ W1)]. apply prens_app; [apply (WfK_length _ _ _ W1)|].
        split; [exact Pr1|]. cbn in *. rewrite Ll, Pc'. exact Pr2.
    + rewrite (child_notin _ _ _ E Bk NI).
      destruct (WfK_split _ _ _ _ WK) as (lss1 & lss2 & -> & W1 & W2).
      pose proof (proj1 (proj2 E)) as BE. pose proof BE as BE'. apply Forall_app in BE as (BE & _).
      pose proof (kids_lt _ _ _ _ _ BE W1 G1 P2) as Hlt. pose proof (kids_gt _ _ _ _ _ (proj1 Bk) W2 G2 P2) as Hgt.
      rewrite concat_app in *. rewrite lhas_app, (lhas_lt _ _ Hlt), (lhas_gt _ _ Hgt). cbn [orb].
      rewrite (lput_before _ _ _ Hlt). pose proof (lput_after lf (concat lss2) [] Hgt) as Q. cbn [app lput] in Q. rewrite Q.
      assert (Ln : (length (es1 ++ es2) < 256)%nat).
      { pose proof (bytes_length (es1 ++ (k, BLeaf 0 lf) :: es2)) as B. rewrite app_length in *. cbn [length] in B.
        assert (length es1 + S (length es2) <= 256)%nat; [|lia]. apply B; [apply ins_sorted; auto; apply (proj1 E)|now apply ins_bytes]. }
      assert (GR : exists n1, (if full nd then grow nd else Ok nd) = Ok n1 /\ Ents n1 (es1 ++ es2) /\ full n1 = false /\ (lo n1 <= S (length (es1 ++ es2)))%nat).
      { pose proof (ents_lth _ _ E) as Lt. destruct (full nd) eqn:Fu.
        - destruct (grow_spec nd _ E Fu Ln) as (n1 & Hg & E1 & Hc). exists n1. split; [exact Hg|]. split; [exact E1|].
          rewrite full_lth in *. apply Nat.eqb_eq in Fu. rewrite (ents_lth _ _ E1), Hc. rewrite Lt in Fu. rewrite Fu in *.
          destruct nd; cbn [cap] in *; destruct n1; cbn [cap] in Hc; try discriminate; cbn [lo]; split; try reflexivity; lia.
        - exists nd. split; [reflexivity|]. split; [exact E|]. split; [exact Fu|]. lia. }
      destruct GR as (n1 & Hg & E1 & Fu1 & Lo1). unfold bind. rewrite Hg.
      destruct (addChild_spec n1 es1 es2 k (BLeaf 0 lf) E1 Fu1 Bk G1 G2) as (n2 & Ha & E2 & Hc2). rewrite Ha.
      eexists. split; [reflexivity|]. split; [|reflexivity].
      eapply Wf_inner with (lss := lss1 ++ [lf] :: lss2); [exact E2| | | | |discriminate].
      * replace (lo n2) with (lo n1) by (destruct n1, n2; cbn in Hc2; try discriminate; reflexivity). rewrite !app_length in *. cbn [length]. lia.
      * rewrite <- Eq. apply WfK_app; [exact W1|]. constructor; [|exact W2]. now constructor.
      * rewrite concat_app. reflexivity.
      * rewrite Es. rewrite !app_length. cbn [length]. lia.
Qed.

Theorem insert_spec : forall lf, Bytes (lKey lf) -> forall p b ls, Wf p b ls -> Inserted lf p b ls.
Proof.
  intros lf Bf. apply Wf_rec.
  - intros. now apply insert_leaf.
  - intros. eapply insert_inner; eauto.
Qed.
