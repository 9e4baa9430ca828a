(* A log in which answers never go back in time is linearizable. *)

From Coq Require Import List Arith Bool Lia.
Import ListNotations.
From Verif Require Import Herm_Spec Herm_Model Herm_Order.

Section L.
Variable c : cfg.
Hypothesis inj : hashInj c.

(* an operation with this timestamp has been answered *)
Definition doneTs (l : list lev) (d : option ts) : Prop :=
  (exists id v, In (LRRes id v d) l) \/
  (exists id t v, d = Some t /\ In (LWRes id true) l /\ In (LIss id t v) l).

Definition idOf (e : lev) : nat :=
  match e with LInv id _ _ | LIss id _ _ | LRRes id _ _ | LWRes id _ => id end.

Definition snocOK (l : list lev) (e : lev) : Prop :=
  match e with
  | LInv id n o => forall e', In e' l -> idOf e' <> id
  | LIss id t v =>
      (exists n, In (LInv id n (OpW v)) l) /\
      (forall t' v', ~ In (LIss id t' v') l) /\
      (forall id' v', ~ In (LIss id' t v') l) /\
      (forall d, doneTs l d -> olt c d (Some t))
  | LRRes id v ot =>
      (exists n, In (LInv id n OpR) l) /\
      (forall v' t', ~ In (LRRes id v' t') l) /\
      match ot with
      | None => v = None
      | Some t => exists j, In (LIss j t v) l
      end /\
      (forall d, doneTs l d -> ole c d ot)
  | LWRes id ok =>
      (exists n v, In (LInv id n (OpW v)) l) /\
      (forall b, ~ In (LWRes id b) l) /\
      (ok = true -> exists t v, In (LIss id t v) l)
  end.

Definition logOK (l : list lev) : Prop :=
  forall i e, nth_error l i = Some e -> snocOK (firstn i l) e.

Lemma logOK_nil : logOK [].
Proof. intros [|i] e; discriminate. Qed.

Lemma logOK_snoc l e : logOK l -> snocOK l e -> logOK (l ++ [e]).
Proof.
  intros H S i x N. destruct (Nat.lt_ge_cases i (length l)) as [L|L].
  - rewrite nth_error_app1 in N by auto.
    rewrite firstn_app, (proj2 (Nat.sub_0_le i (length l))) by lia. cbn. rewrite app_nil_r. eauto.
  - rewrite nth_error_app2 in N by auto.
    destruct (i - length l) as [|k] eqn:E; cbn in N.
    + injection N as <-. assert (i = length l) by lia. subst.
      rewrite firstn_app, firstn_all, Nat.sub_diag. cbn. now rewrite app_nil_r.
    + destruct k; discriminate.
Qed.

Lemma in_firstn {A} (l : list A) i x :
  In x (firstn i l) <-> exists j, j < i /\ nth_error l j = Some x.
Proof.
  split.
  - intros H. destruct (In_nth_error _ _ H) as [j E]. exists j.
    assert (j < length (firstn i l)) by (apply nth_error_Some; congruence).
    rewrite firstn_length in H0.
    split; [lia|]. rewrite <- (firstn_skipn i l), nth_error_app1; auto.
    rewrite firstn_length; lia.
  - intros (j & L & E).
    assert (j < length l) by (apply nth_error_Some; congruence).
    rewrite <- (firstn_skipn i l), nth_error_app1 in E by (rewrite firstn_length; lia).
    eapply nth_error_In; eauto.
Qed.

(* marks: where an operation takes its place *)
Record mark := MK { mid : nat; mts : option ts; mrd : bool; mix : nat }.

Definition mark1 (i : nat) (e : lev) : list mark :=
  match e with
  | LIss id t _ => [MK id (Some t) false i]
  | LRRes id _ ot => [MK id ot true i]
  | _ => []
  end.

Fixpoint marks (i : nat) (l : list lev) : list mark :=
  match l with
  | [] => []
  | e :: l' => mark1 i e ++ marks (S i) l'
  end.

Lemma marks_in l : forall i m, In m (marks i l) <->
  i <= mix m /\
  match mts m, mrd m with
  | Some t, false => exists v, nth_error l (mix m - i) = Some (LIss (mid m) t v)
  | ot, true => exists v, nth_error l (mix m - i) = Some (LRRes (mid m) v ot)
  | None, false => False
  end.
Proof.
  induction l as [|e l IH]; intros i m; cbn [marks].
  - cbn. split; [tauto|]. intros [_ H].
    destruct (mts m), (mrd m); try destruct H as [v H]; auto; destruct (mix m - i); discriminate.
  - rewrite in_app_iff, IH. split.
    + intros [H|[L H]].
      * destruct e; cbn in H; try tauto; destruct H as [<-|[]]; cbn [mix mts mrd mid]; split; auto;
          rewrite Nat.sub_diag; cbn; eauto. destruct t; eauto.
      * split; [lia|]. replace (mix m - i) with (S (mix m - S i)) by lia. exact H.
    + intros [L H]. destruct (Nat.eq_dec (mix m) i) as [E|NE].
      * left. rewrite E, Nat.sub_diag in H. cbn in H. destruct m as [a [t|] [|] x]; cbn in *;
          try destruct H as [v H]; try (injection H as ->); subst; cbn; auto; contradiction.
      * right. split; [lia|]. replace (mix m - i) with (S (mix m - S i)) in H by lia. exact H.
Qed.

Lemma marks_ge l i m : In m (marks i l) -> i <= mix m.
Proof. intros H; apply marks_in in H; tauto. Qed.

Lemma marks_ix l : forall i, NoDup (map mix (marks i l)).
Proof.
  induction l as [|e l IH]; intros i; cbn [marks]; [constructor|].
  rewrite map_app.
  assert (Q : ~ In i (map mix (marks (S i) l))).
  { intros H. apply in_map_iff in H. destruct H as (m & E & H). apply marks_ge in H. lia. }
  destruct e; cbn; auto; constructor; auto.
Qed.

(* the order *)
Definition mlt (x y : mark) : Prop :=
  olt c (mts x) (mts y) \/
  (mts x = mts y /\
   ((mrd x = false /\ mrd y = true) \/ (mrd x = mrd y /\ mix x < mix y))).

Lemma mlt_trans x y z : mlt x y -> mlt y z -> mlt x z.
Proof.
  intros [A|[A A']] [B|[B B']].
  - left. eapply olt_trans; eauto.
  - left. now rewrite <- B.
  - left. now rewrite A.
  - right. split; [congruence|].
    destruct A' as [[? ?]|[? ?]], B' as [[? ?]|[? ?]]; try congruence.
    + left; split; congruence.
    + left; split; congruence.
    + right; split; [congruence|lia].
Qed.

Lemma mlt_total x y : mix x <> mix y -> mlt x y \/ mlt y x.
Proof.
  intros NE. destruct (o_total c inj (mts x) (mts y)) as [|[E|]]; unfold mlt; auto.
  destruct (mrd x) eqn:X, (mrd y) eqn:Y; auto 6.
  all: assert (mix x < mix y \/ mix y < mix x) as [|] by lia; auto 8.
Qed.

Definition oltb (a b : option ts) : bool :=
  match a, b with
  | None, Some _ => true
  | Some x, Some y => match tsCompare c x y with Lt => true | _ => false end
  | _, None => false
  end.
Lemma oltb_spec a b : oltb a b = true <-> olt c a b.
Proof.
  destruct a as [a|], b as [b|]; cbn; try (intuition congruence).
  unfold tlt. destruct (tsCompare c a b); intuition congruence.
Qed.
Definition mltb (x y : mark) : bool :=
  oltb (mts x) (mts y) ||
  (negb (oltb (mts y) (mts x)) &&
   ((negb (mrd x) && mrd y) || (Bool.eqb (mrd x) (mrd y) && (mix x <? mix y)))).
Lemma mltb_spec x y : mltb x y = true <-> mlt x y.
Proof.
  unfold mltb, mlt. rewrite orb_true_iff, andb_true_iff, orb_true_iff, !andb_true_iff,
    Nat.ltb_lt, eqb_true_iff, !negb_true_iff, oltb_spec.
  split.
  - intros [H|[H H']]; auto.
    destruct (o_total c inj (mts x) (mts y)) as [|[E|G]]; auto.
    apply oltb_spec in G. congruence.
  - intros [H|[H H']]; auto. right. split; auto.
    destruct (oltb (mts y) (mts x)) eqn:E; auto. apply oltb_spec in E. rewrite H in E.
    exfalso. eapply olt_irrefl; eauto.
Qed.

Fixpoint ins (m : mark) (l : list mark) : list mark :=
  match l with
  | [] => [m]
  | x :: l' => if mltb m x then m :: l else x :: ins m l'
  end.
Fixpoint isort (l : list mark) : list mark :=
  match l with
  | [] => []
  | m :: l' => ins m (isort l')
  end.

Lemma ins_in m l x : In x (ins m l) <-> x = m \/ In x l.
Proof.
  induction l as [|y l IH]; cbn; [intuition congruence|].
  destruct (mltb m y); cbn; [intuition congruence|]. rewrite IH. tauto.
Qed.
Lemma isort_in l x : In x (isort l) <-> In x l.
Proof. induction l as [|y l IH]; cbn; [tauto|]. rewrite ins_in, IH. intuition congruence. Qed.

Inductive ssorted : list mark -> Prop :=
| ss_nil : ssorted []
| ss_cons m l : (forall x, In x l -> mlt m x) -> ssorted l -> ssorted (m :: l).

Lemma ins_sorted m l : ssorted l -> (forall x, In x l -> mix x <> mix m) -> ssorted (ins m l).
Proof.
  induction 1 as [|y l H S IH]; cbn; intros D.
  - constructor; [intros x []|constructor].
  - destruct (mltb m y) eqn:E.
    + apply mltb_spec in E. constructor; [|constructor; auto].
      intros x [<-|I]; auto. eapply mlt_trans; eauto.
    + constructor; [|apply IH; intros; apply D; cbn; auto].
      intros x I. rewrite ins_in in I. destruct I as [->|I]; auto.
      destruct (mlt_total m y) as [T|T]; auto.
      * apply not_eq_sym, D; cbn; auto.
      * apply mltb_spec in T. congruence.
Qed.

Lemma isort_sorted l : NoDup (map mix l) -> ssorted (isort l).
Proof.
  induction l as [|m l IH]; cbn; intros N; [constructor|].
  inversion N; subst. apply ins_sorted; auto.
  intros x I E. rewrite isort_in in I. apply H1. rewrite <- E. apply (in_map mix); exact I.
Qed.

Lemma mlt_irrefl x : ~ mlt x x.
Proof. intros [H|[_ [[H H']|[_ H]]]]; [eapply olt_irrefl; eauto|congruence|lia]. Qed.

Lemma sorted_nodup l : ssorted l -> NoDup l.
Proof.
  induction 1; constructor; auto. intros I. apply (mlt_irrefl m); auto.
Qed.

(* ---- the client's view ---- *)
Lemma hist_app a b : hist_of (a ++ b) = hist_of a ++ hist_of b.
Proof. unfold hist_of. apply flat_map_app. Qed.

Lemma hist_split l : forall h1 x h2, hist_of l = h1 ++ x :: h2 ->
  exists l1 e l2, l = l1 ++ e :: l2 /\ hist1 e = [x] /\ hist_of l1 = h1 /\ hist_of l2 = h2.
Proof.
  induction l as [|e l IH]; intros h1 x h2 H.
  - destruct h1; discriminate.
  - cbn in H. change (flat_map hist1 l) with (hist_of l) in H.
    assert (hist1 e = [] \/ exists y, hist1 e = [y]) as [E|[y E]].
    { destruct e; cbn; eauto. destruct ok; eauto. }
    + rewrite E in H. cbn in H. destruct (IH _ _ _ H) as (l1 & e' & l2 & -> & A & B & C).
      exists (e :: l1), e', l2. repeat split; auto. cbn. rewrite E. auto.
    + rewrite E in H. cbn in H. destruct h1 as [|z h1]; injection H as -> H.
      * exists [], e, l. auto.
      * destruct (IH _ _ _ H) as (l1 & e' & l2 & -> & A & B & C).
        exists (e :: l1), e', l2. repeat split; auto. cbn. rewrite E. cbn. now rewrite <- B.
Qed.

Lemma hist_in l x : In x (hist_of l) <-> exists e, In e l /\ hist1 e = [x].
Proof.
  unfold hist_of. rewrite in_flat_map. split.
  - intros (e & I & H). exists e. split; auto.
    destruct e; cbn in *; try tauto; try (destruct H as [->|[]]; auto).
    destruct ok; cbn in *; destruct H as [->|[]]; auto.
  - intros (e & I & H). exists e. split; auto. rewrite H; cbn; auto.
Qed.

Lemma h1_inv e id n o : hist1 e = [HInv id n o] -> e = LInv id n o.
Proof. destruct e; cbn; try discriminate; [congruence|]. destruct ok; discriminate. Qed.
Lemma h1_okr e id v : hist1 e = [HRes id (HOkR v)] -> exists t, e = LRRes id v t.
Proof. destruct e; cbn; try discriminate; [|destruct ok; discriminate]. intros [= -> ->]; eauto. Qed.
Lemma h1_okw e id : hist1 e = [HRes id HOkW] -> e = LWRes id true.
Proof. destruct e; cbn; try discriminate. destruct ok; try discriminate. intros [= ->]; auto. Qed.
Lemma h1_err e id : hist1 e = [HRes id HErr] -> e = LWRes id false.
Proof. destruct e; cbn; try discriminate. destruct ok; try discriminate. intros [= ->]; auto. Qed.

Section Log.
Variable lg : list lev.
Hypothesis OK : logOK lg.

Lemma nth_in i e : nth_error lg i = Some e -> In e lg.
Proof. apply nth_error_In. Qed.

Lemma pos_of e : In e lg -> exists i, nth_error lg i = Some e.
Proof. apply In_nth_error. Qed.

Lemma uniq_inv i j id n o n' o' :
  nth_error lg i = Some (LInv id n o) -> nth_error lg j = Some (LInv id n' o') -> i = j.
Proof.
  intros A B. destruct (Nat.lt_trichotomy i j) as [L|[|L]]; auto; exfalso.
  - specialize (OK _ _ B). cbn in OK. apply (OK (LInv id n o)); auto. apply in_firstn; eauto.
  - specialize (OK _ _ A). cbn in OK. apply (OK (LInv id n' o')); auto. apply in_firstn; eauto.
Qed.

Lemma uniq_iss_id i j id t v t' v' :
  nth_error lg i = Some (LIss id t v) -> nth_error lg j = Some (LIss id t' v') -> i = j.
Proof.
  intros A B. destruct (Nat.lt_trichotomy i j) as [L|[|L]]; auto; exfalso.
  - specialize (OK _ _ B). cbn in OK. destruct OK as (_ & Q & _). apply (Q t v). apply in_firstn; eauto.
  - specialize (OK _ _ A). cbn in OK. destruct OK as (_ & Q & _). apply (Q t' v'). apply in_firstn; eauto.
Qed.

Lemma uniq_iss_ts i j id id' t v v' :
  nth_error lg i = Some (LIss id t v) -> nth_error lg j = Some (LIss id' t v') -> i = j.
Proof.
  intros A B. destruct (Nat.lt_trichotomy i j) as [L|[|L]]; auto; exfalso.
  - specialize (OK _ _ B). cbn in OK. destruct OK as (_ & _ & Q & _). apply (Q id v). apply in_firstn; eauto.
  - specialize (OK _ _ A). cbn in OK. destruct OK as (_ & _ & Q & _). apply (Q id' v'). apply in_firstn; eauto.
Qed.

Lemma uniq_rr i j id t v t' v' :
  nth_error lg i = Some (LRRes id v t) -> nth_error lg j = Some (LRRes id v' t') -> i = j.
Proof.
  intros A B. destruct (Nat.lt_trichotomy i j) as [L|[|L]]; auto; exfalso.
  - specialize (OK _ _ B). cbn in OK. destruct OK as (_ & Q & _). apply (Q v t). apply in_firstn; eauto.
  - specialize (OK _ _ A). cbn in OK. destruct OK as (_ & Q & _). apply (Q v' t'). apply in_firstn; eauto.
Qed.

Lemma iss_inv i id t v : nth_error lg i = Some (LIss id t v) ->
  exists j n, j < i /\ nth_error lg j = Some (LInv id n (OpW v)).
Proof.
  intros A. specialize (OK _ _ A). cbn in OK. destruct OK as ((n & Q) & _).
  apply in_firstn in Q. destruct Q as (j & L & Q). eauto.
Qed.
Lemma rr_inv i id t v : nth_error lg i = Some (LRRes id v t) ->
  exists j n, j < i /\ nth_error lg j = Some (LInv id n OpR).
Proof.
  intros A. specialize (OK _ _ A). cbn in OK. destruct OK as ((n & Q) & _).
  apply in_firstn in Q. destruct Q as (j & L & Q). eauto.
Qed.

Lemma op_unique id n o n' o' : In (LInv id n o) lg -> In (LInv id n' o') lg -> o = o'.
Proof.
  intros A B. destruct (pos_of _ A) as [i I], (pos_of _ B) as [j J].
  pose proof (uniq_inv _ _ _ _ _ _ _ I J); subst. congruence.
Qed.

Definition M := marks 0 lg.

Lemma M_in m : In m M <->
  match mts m, mrd m with
  | Some t, false => exists v, nth_error lg (mix m) = Some (LIss (mid m) t v)
  | ot, true => exists v, nth_error lg (mix m) = Some (LRRes (mid m) v ot)
  | None, false => False
  end.
Proof.
  unfold M. rewrite marks_in. rewrite Nat.sub_0_r. split; [tauto|]. intros; split; auto; lia.
Qed.

(* every mark's request comes before it *)
Lemma M_inv m : In m M -> exists j n o, j < mix m /\ nth_error lg j = Some (LInv (mid m) n o) /\
  (mrd m = true <-> o = OpR).
Proof.
  intros H. apply M_in in H. destruct (mts m), (mrd m); try tauto; destruct H as [v H].
  - destruct (rr_inv _ _ _ _ H) as (j & n & L & Q). exists j, n, OpR. tauto.
  - destruct (iss_inv _ _ _ _ H) as (j & n & L & Q). exists j, n, (OpW v). repeat split; auto; discriminate.
  - destruct (rr_inv _ _ _ _ H) as (j & n & L & Q). exists j, n, OpR. tauto.
Qed.

Lemma M_inj x y : In x M -> In y M -> mid x = mid y -> x = y.
Proof.
  intros X Y E.
  destruct (M_inv _ X) as (j & n & o & _ & J & Jr), (M_inv _ Y) as (j' & n' & o' & _ & J' & Jr').
  rewrite E in J. pose proof (uniq_inv _ _ _ _ _ _ _ J J'); subst.
  rewrite J in J'. injection J' as -> ->.
  assert (R : mrd x = mrd y) by (destruct (mrd x), (mrd y); auto; intuition congruence).
  apply M_in in X, Y. destruct x as [a t r i], y as [b u s k]. cbn in *. subst.
  destruct s.
  - assert (exists v, nth_error lg i = Some (LRRes b v t)) as [v1 V1] by (destruct t; auto).
    assert (exists v, nth_error lg k = Some (LRRes b v u)) as [v2 V2] by (destruct u; auto).
    pose proof (uniq_rr _ _ _ _ _ _ _ V1 V2); subst. congruence.
  - destruct t, u; try tauto. destruct X as [v1 V1], Y as [v2 V2].
    pose proof (uniq_iss_id _ _ _ _ _ _ _ V1 V2); subst. congruence.
Qed.

Definition lin : list nat := map mid (isort M).

Lemma lin_in i : In i lin <-> exists m, In m M /\ mid m = i.
Proof.
  unfold lin. rewrite in_map_iff. split; intros (m & A & B); exists m;
  [rewrite isort_in in B|rewrite isort_in]; auto.
Qed.

Lemma lin_sorted : ssorted (isort M).
Proof. apply isort_sorted. apply marks_ix. Qed.

Lemma lin_nodup : NoDup lin.
Proof.
  unfold lin. assert (S : ssorted (isort M)) by apply lin_sorted.
  assert (I : forall x, In x (isort M) -> In x M) by (intros x; apply isort_in).
  induction S as [|m l H S IH]; cbn; constructor.
  - intros H'. apply in_map_iff in H'. destruct H' as (y & E & Y).
    assert (y = m) by (apply M_inj; auto; apply I; cbn; auto). subst.
    apply (mlt_irrefl m); auto.
  - apply IH. intros; apply I; cbn; auto.
Qed.

(* an answered operation has a mark, and the answer comes no earlier *)
Lemma answered_mark i a r : nth_error lg i = Some a -> hist1 a = [HRes r HOkW] \/ (exists v, hist1 a = [HRes r (HOkR v)]) ->
  exists m, In m M /\ mid m = r /\ mix m <= i /\ doneTs (firstn (S i) lg) (mts m) /\
    (mrd m = true -> mix m = i).
Proof.
  intros N [H|[v H]].
  - apply h1_okw in H. subst. pose proof (OK _ _ N) as Q. cbn in Q. destruct Q as (_ & _ & Q).
    destruct (Q eq_refl) as (t & v & K). pose proof K as K'. apply in_firstn in K. destruct K as (j & L & K).
    exists (MK r (Some t) false j). cbn [mid mts mrd mix]. split; [apply M_in; cbn; eauto|]. split; auto. split; [lia|].
    split; [|discriminate]. right. exists r, t, v. split; auto. rewrite !in_firstn. split; [exists i|exists j]; split; auto; lia.
  - apply h1_okr in H. destruct H as (t & ->).
    exists (MK r t true i). cbn [mid mts mrd mix]. split; [apply M_in; cbn; destruct t; eauto|]. split; auto. split; auto.
    split; auto. left. exists r, v. apply in_firstn; eauto.
Qed.

(* the answer of y comes before the mark of x: the marks are in order *)
Lemma mark_order y x i : In y M -> In x M -> doneTs (firstn (S i) lg) (mts y) -> i < mix x ->
  (mrd y = true -> mix y = i) -> (mrd y = false -> mix y <= i) -> mlt y x.
Proof.
  intros Y X D L E E'.
  assert (D' : doneTs (firstn (mix x) lg) (mts y)).
  { destruct D as [(id & v & D)|(id & t & v & D1 & D2 & D3)].
    - left. exists id, v. apply in_firstn in D. destruct D as (j & ? & ?). apply in_firstn. exists j; split; auto; lia.
    - right. exists id, t, v. split; auto. rewrite in_firstn in D2, D3. rewrite !in_firstn.
      destruct D2 as (j & ? & ?), D3 as (k & ? & ?). split; [exists j|exists k]; split; auto; lia. }
  apply M_in in X. destruct (mts x) as [t|] eqn:T, (mrd x) eqn:R; try tauto; destruct X as [v X];
    pose proof (OK _ _ X) as Q; cbn in Q; destruct Q as (_ & Q2 & Q3 & Q4); specialize (Q4 _ D').
  - destruct Q4 as [Q4|Q4]; unfold mlt; rewrite T, R; auto.
    right. split; auto. destruct (mrd y) eqn:Ry; auto. right. split; auto. rewrite E; auto.
  - unfold mlt. rewrite T. auto.
  - destruct Q4 as [Q4|Q4]; unfold mlt; rewrite T, R; auto.
    right. split; auto. destruct (mrd y) eqn:Ry; auto. right. split; auto. rewrite E; auto.
Qed.

Lemma precedes_mlt a b x y : precedes (hist_of lg) a b -> In x M -> mid x = a -> In y M -> mid y = b ->
  mlt x y.
Proof.
  intros (h1 & h2 & h3 & r & n & o & H & NE) X Xa Y Yb.
  destruct (hist_split _ _ _ _ H) as (l1 & e & l2 & L & E & B1 & B2).
  destruct (hist_split _ _ _ _ B2) as (l3 & e' & l4 & L' & E' & B3 & B4).
  apply h1_inv in E'. subst e'.
  assert (Na : nth_error lg (length l1) = Some e).
  { rewrite L, nth_error_app2, Nat.sub_diag by lia. auto. }
  assert (Nb : nth_error lg (length l1 + S (length l3)) = Some (LInv b n o)).
  { rewrite L, L'. rewrite nth_error_app2 by lia.
    replace (length l1 + S (length l3) - length l1) with (S (length l3)) by lia. cbn.
    rewrite nth_error_app2, Nat.sub_diag by lia. auto. }
  destruct (answered_mark (length l1) e a Na) as (m & Hm & Em & Lm & Dm & Rm).
  { destruct r; try congruence; eauto. }
  assert (m = x) by (apply M_inj; auto; congruence). subst m.
  destruct (M_inv _ Y) as (j & n' & o' & Lj & J & _). rewrite Yb in J.
  pose proof (uniq_inv _ _ _ _ _ _ _ J Nb).
  eapply mark_order; eauto; lia.
Qed.

Lemma sorted_before l : ssorted l -> forall x y, In x l -> In y l -> mlt x y ->
  exists l1 l2 l3, l = l1 ++ x :: l2 ++ y :: l3.
Proof.
  induction 1 as [|m l H S IH]; intros x y X Y Lt; [destruct X|].
  destruct X as [->|X].
  - destruct Y as [->|Y]; [exfalso; eapply mlt_irrefl; eauto|].
    apply in_split in Y. destruct Y as (l2 & l3 & ->). exists [], l2, l3. auto.
  - destruct Y as [->|Y].
    + exfalso. apply (mlt_irrefl x). eapply mlt_trans; eauto.
    + destruct (IH x y X Y Lt) as (l1 & l2 & l3 & ->). exists (m :: l1), l2, l3. auto.
Qed.

(* the value after a prefix *)
Definition wval (m : mark) : option (option nat) :=
  match nth_error lg (mix m) with
  | Some (LIss _ _ v) => Some v
  | _ => None
  end.

Fixpoint lastw (cur : option nat) (l : list mark) : option nat :=
  match l with
  | [] => cur
  | m :: l' => lastw (match wval m with Some v => v | None => cur end) l'
  end.

Lemma wval_rd m : In m M -> (wval m = None <-> mrd m = true).
Proof.
  intros H. apply M_in in H. unfold wval. destruct (mts m), (mrd m); try tauto; destruct H as [v ->]; intuition congruence.
Qed.

(* a suffix of the sorted list, cur being what the prefix leaves *)
Lemma legal_suffix : forall suf pre cur,
  isort M = pre ++ suf ->
  (forall t v j k, In (MK j (Some t) false k) pre -> nth_error lg k = Some (LIss j t v) ->
     (forall m, In m pre -> mrd m = false -> m = MK j (Some t) false k \/ mlt m (MK j (Some t) false k)) ->
     cur = v) ->
  ((forall m, In m pre -> mrd m = true) -> cur = None) ->
  legal (hist_of lg) cur (map mid suf).
Proof.
  induction suf as [|m suf IH]; intros pre cur E C0 C1; cbn; auto.
  assert (SS := lin_sorted). rewrite E in SS.
  assert (Hm : In m M) by (apply isort_in; rewrite E; apply in_or_app; cbn; auto).
  assert (PRE : forall x, In x pre -> mlt x m).
  { intros x X. clear - SS X. induction pre as [|y pre IH]; [destruct X|].
    inversion SS; subst. destruct X as [->|X]; [apply H1; apply in_or_app; cbn; auto|auto]. }
  assert (SUF : forall x, In x suf -> mlt m x).
  { intros x X. clear - SS X. induction pre as [|y pre IH]; inversion SS; subst; auto. }
  destruct (mrd m) eqn:R.
  - (* a read *)
    exists cur. split.
    + right. pose proof (M_inv _ Hm) as (j & n & o & _ & J & Jr). apply Jr in R as Jo. subst o.
      exists n. split; [apply hist_in; exists (LInv (mid m) n OpR); split; auto; eapply nth_error_In; eauto|].
      split; auto.
      apply M_in in Hm as Hm'. rewrite R in Hm'.
      assert (exists v, nth_error lg (mix m) = Some (LRRes (mid m) v (mts m))) as [v V] by (destruct (mts m); auto).
      assert (v = cur).
      { pose proof (OK _ _ V) as Q. cbn in Q. destruct Q as (_ & _ & Q & _).
        destruct (mts m) as [t|] eqn:T.
        - destruct Q as (j' & Q). apply in_firstn in Q. destruct Q as (k & Lk & Q).
          assert (Hw : In (MK j' (Some t) false k) M) by (apply M_in; cbn; eauto).
          assert (LT : mlt (MK j' (Some t) false k) m) by (right; cbn; rewrite T; auto).
          symmetry. apply (C0 t v j' k).
          + rewrite <- isort_in, E in Hw. apply in_app_or in Hw. destruct Hw as [|Hw]; auto.
            exfalso. destruct Hw as [Em|Hw]; [rewrite <- Em in LT; eapply mlt_irrefl; eauto|].
            apply (mlt_irrefl m). eapply mlt_trans; eauto.
          + auto.
          + intros x X Rx. specialize (PRE _ X).
            assert (Xm : In x M) by (apply isort_in; rewrite E; apply in_or_app; auto).
            destruct PRE as [P|[P P']].
            * right. left. cbn. now rewrite <- T.
            * left. rewrite T in P. apply M_in in Xm. rewrite P, Rx in Xm. destruct Xm as [v' Xm].
              pose proof (uniq_iss_ts _ _ _ _ _ _ _ Xm Q). subst k. rewrite Q in Xm. injection Xm as E1 E2.
              destruct x; cbn in *; subst; auto.
        - subst v. symmetry. apply C1. intros x X. specialize (PRE _ X).
          destruct PRE as [P|[P P']]; [rewrite T in P; destruct (mts x); destruct P|].
          destruct (mrd x) eqn:Rx; auto. exfalso.
          assert (Xm : In x M) by (apply isort_in; rewrite E; apply in_or_app; auto).
          apply M_in in Xm. rewrite P, T, Rx in Xm. auto. }
      subst v. apply hist_in. exists (LRRes (mid m) cur (mts m)). split; auto. eapply nth_error_In; eauto.
    + apply (IH (pre ++ [m])).
      * rewrite <- app_assoc. auto.
      * intros t v j k I N F. apply (C0 t v j k); auto.
        -- apply in_app_or in I. destruct I as [|[->|[]]]; auto. discriminate R.
        -- intros x X Rx. apply F; auto. apply in_or_app; auto.
      * intros F. apply C1. intros x X. apply F. apply in_or_app; auto.
  - (* a write *)
    apply M_in in Hm as Hm'. rewrite R in Hm'. destruct (mts m) as [t|] eqn:T; [|tauto]. destruct Hm' as [v V].
    exists v. split.
    + left. destruct (iss_inv _ _ _ _ V) as (j & n & _ & J). exists n, v. split; auto.
      apply hist_in. exists (LInv (mid m) n (OpW v)). split; auto. eapply nth_error_In; eauto.
    + apply (IH (pre ++ [m])).
      * rewrite <- app_assoc. auto.
      * intros t' v' j k I N F.
        destruct (F m) as [Em|Em]; [apply in_or_app; cbn; auto|auto| |].
        -- subst m. cbn in *. rewrite N in V. congruence.
        -- exfalso. apply in_app_or in I. destruct I as [I|[->|[]]].
           ++ apply PRE in I. apply (mlt_irrefl m). eapply mlt_trans; eauto.
           ++ eapply mlt_irrefl; eauto.
      * intros F. specialize (F m). rewrite F in R; [discriminate|]. apply in_or_app; cbn; auto.
Qed.

Theorem logOK_linearizable : linearizable (hist_of lg).
Proof.
  exists lin. split; [apply lin_nodup|]. repeat apply conj.
  - intros i H. rewrite lin_in in H. destruct H as (m & Hm & <-).
    destruct (M_inv _ Hm) as (j & n & o & _ & J & _). exists n, o. apply hist_in.
    exists (LInv (mid m) n o). split; auto. eapply nth_error_In; eauto.
  - intros i (a & H & NE). apply hist_in in H. destruct H as (e & I & H).
    destruct (pos_of _ I) as [p P].
    destruct (answered_mark p e i P) as (m & Hm & Em & _).
    { destruct a; try congruence; eauto. }
    apply lin_in. eauto.
  - intros i n H I. rewrite lin_in in H. destruct H as (m & Hm & <-).
    apply hist_in in I. destruct I as (e & I & H). apply h1_inv in H. subst e.
    destruct (M_inv _ Hm) as (j & n' & o & _ & J & Jr).
    assert (o = OpR) by (eapply op_unique; eauto; eapply nth_error_In; eauto). subst o.
    assert (R : mrd m = true) by tauto. apply M_in in Hm. rewrite R in Hm.
    assert (exists v, nth_error lg (mix m) = Some (LRRes (mid m) v (mts m))) as [v V] by (destruct (mts m); auto).
    exists (HOkR v). split; [|discriminate]. apply hist_in. eexists. split; [eapply nth_error_In; eauto|reflexivity].
  - intros a b A B P. rewrite lin_in in A, B. destruct A as (x & X & Xa), B as (y & Y & Yb).
    pose proof (precedes_mlt _ _ _ _ P X Xa Y Yb) as Lt.
    destruct (sorted_before _ lin_sorted x y) as (l1 & l2 & l3 & E); auto; try (apply isort_in; auto).
    unfold lin. rewrite E. exists (map mid l1), (map mid l2), (map mid l3).
    rewrite !map_app. cbn. rewrite map_app. cbn. now rewrite Xa, Yb.
  - apply (legal_suffix (isort M) [] None); auto. intros t v j k [].
Qed.

Theorem logOK_wellformed : wellformed (hist_of lg).
Proof.
  split.
  - intros h1 h2 i n o H. destruct (hist_split _ _ _ _ H) as (l1 & e & l2 & L & E & B1 & B2).
    apply h1_inv in E. subst e.
    assert (N : nth_error lg (length l1) = Some (LInv i n o)) by (rewrite L, nth_error_app2, Nat.sub_diag by lia; auto).
    assert (FN : firstn (length l1) lg = l1) by
      (rewrite L, firstn_app, firstn_all, Nat.sub_diag; cbn; apply app_nil_r).
    pose proof (OK _ _ N) as Q. rewrite FN in Q. cbn in Q.
    subst h1. split.
    + intros n' o' I. apply hist_in in I. destruct I as (e & I & F). apply h1_inv in F. subst. apply (Q _ I); auto.
    + intros a I. apply hist_in in I. destruct I as (e & I & F). apply (Q _ I).
      destruct e; cbn in F |- *; try discriminate; try congruence. destruct ok; cbn; congruence.
  - intros h1 h2 i a H. destruct (hist_split _ _ _ _ H) as (l1 & e & l2 & L & E & B1 & B2).
    assert (N : nth_error lg (length l1) = Some e) by (rewrite L, nth_error_app2, Nat.sub_diag by lia; auto).
    assert (FN : firstn (length l1) lg = l1) by
      (rewrite L, firstn_app, firstn_all, Nat.sub_diag; cbn; apply app_nil_r).
    pose proof (OK _ _ N) as Q. rewrite FN in Q.
    subst h1.
    assert (AA : forall n o n' o', In (LInv i n o) l1 -> In (LInv i n' o') l1 -> o = o').
    { intros n o n' o' A B. eapply (op_unique i n o n' o'); rewrite L; apply in_or_app; auto. }
    assert (ISS : forall e', In e' l1 -> exists k, nth_error lg k = Some e').
    { intros e' A. apply pos_of. rewrite L. apply in_or_app; auto. }
    assert (e = LRRes i (match e with LRRes _ v _ => v | _ => None end) (match e with LRRes _ _ t => t | _ => None end)
            \/ exists b, e = LWRes i b) as [Ee|[b Ee]].
    { destruct e; cbn in E; try discriminate; [left; congruence|right].
      exists ok. destruct ok; congruence. }
    + rewrite Ee in Q. cbn [snocOK] in Q. destruct Q as ((n & Q1) & Q2 & _). split.
      * exists n, OpR. apply hist_in. eexists; split; eauto; reflexivity.
      * intros a' I. apply hist_in in I. destruct I as (e' & I & F).
        destruct e'; cbn in F; try discriminate.
        -- injection F as -> _. eapply Q2; eauto.
        -- assert (id = i) by (destruct ok; congruence). subst id.
           destruct (ISS _ I) as [k K]. pose proof (OK _ _ K) as W. cbn in W. destruct W as ((n' & v' & W) & _).
           apply in_firstn in W. destruct W as (k' & Lk & W).
           assert (OpR = OpW v'); [|discriminate].
           eapply (op_unique i n OpR n'); [rewrite L; apply in_or_app; auto|eapply nth_error_In; eauto].
    + rewrite Ee in Q. cbn in Q. destruct Q as ((n & v & Q1) & Q2 & _). split.
      * exists n, (OpW v). apply hist_in. eexists; split; eauto; reflexivity.
      * intros a' I. apply hist_in in I. destruct I as (e' & I & F).
        destruct e'; cbn in F; try discriminate.
        -- injection F as -> _.
           destruct (ISS _ I) as [k K]. pose proof (OK _ _ K) as W. cbn in W. destruct W as ((n' & W) & _).
           apply in_firstn in W. destruct W as (k' & Lk & W).
           assert (OpW v = OpR); [|discriminate].
           eapply (op_unique i n (OpW v) n'); [rewrite L; apply in_or_app; auto|eapply nth_error_In; eauto].
        -- assert (id = i) by (destruct ok; congruence). subst id. eapply Q2; eauto.
Qed.
End Log.
End L.
