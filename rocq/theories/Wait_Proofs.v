(** Invariants of the requests that wait at a node. *)
From Coq Require Import List ZArith Bool Arith Lia.
Import ListNotations.
From Verif Require Import Wait_Model Wait_Spec.
Local Open Scope Z_scope.

Lemma put_In : forall k v l x, In x (put k v l) -> x = (k, v) \/ In x l.
Proof.
  induction l as [|y l IH]; cbn [put]; intros x H.
  - destruct H as [<- | []]; auto.
  - destruct (k =? fst y).
    + destruct H as [<- | H]; [auto | right; right; exact H].
    + destruct (k <? fst y).
      * destruct H as [<- | H]; auto.
      * destruct H as [<- | H]; [right; left; reflexivity|]. destruct (IH x H) as [A | A]; [auto | right; right; exact A].
Qed.
Lemma remove_In : forall k l x, In x (remove k l) -> In x l.
Proof. intros k l x H. apply filter_In in H. apply H. Qed.
Lemma get_In : forall k l v, get k l = Some v -> In (k, v) l.
Proof.
  induction l as [|y l IH]; cbn [get]; intros v H; [discriminate|].
  destruct (Z.eqb_spec (fst y) k) as [E | E].
  - left. destruct y as [a b]. cbn in *. congruence.
  - right. apply IH, H.
Qed.
Lemma get_put : forall k v l j, get j (put k v l) = if k =? j then Some v else get j l.
Proof.
  induction l as [|y l IH]; intros j; cbn [put get].
  - cbn [fst snd]. reflexivity.
  - destruct (Z.eqb_spec k (fst y)) as [E | E]; cbn [get fst snd].
    + rewrite <- E. destruct (k =? j); reflexivity.
    + destruct (k <? fst y); cbn [get fst snd]; [reflexivity|].
      rewrite IH. destruct (Z.eqb_spec (fst y) j), (Z.eqb_spec k j); try reflexivity. lia.
Qed.
Lemma get_remove : forall k l j, get j (remove k l) = if k =? j then None else get j l.
Proof.
  unfold remove. induction l as [|y l IH]; intros j; cbn [filter get].
  - destruct (k =? j); reflexivity.
  - destruct (Z.eqb_spec (fst y) k) as [E | E]; cbn [negb get].
    + rewrite IH. destruct (Z.eqb_spec k j); [reflexivity|]. destruct (Z.eqb_spec (fst y) j); [lia | reflexivity].
    + rewrite IH. destruct (Z.eqb_spec (fst y) j), (Z.eqb_spec k j); try reflexivity. lia.
Qed.

(** The map by ID does not change on a walk. *)
Lemma repair_byId : forall h s, byId (repair h s) = byId s.
Proof.
  intros h s. unfold repair. generalize (await s). intros l. revert s.
  induction l as [|x l IH]; intros s; cbn [fold_left]; [reflexivity|].
  rewrite IH. unfold repairOne. destruct (get (fst x) (byId s)); [|reflexivity]. destruct (0 <? tIdx (h (snd x))); reflexivity.
Qed.

(** A map of tickets that exist, those in order with an index, those by ID under theirs. *)
Definition wf (h : heap) (nx : nat) (w : imap) : Prop :=
  (forall k q, In (k, q) (ordered w) -> (q < nx)%nat /\ 0 < tIdx (h q)) /\
  (forall k q, In (k, q) (byId w) -> (q < nx)%nat /\ tId (h q) = k) /\
  (forall k q, In (k, q) (await w) -> (q < nx)%nat).

Definition ext (nx : nat) (h h' : heap) : Prop :=
  forall q, (q < nx)%nat -> tId (h' q) = tId (h q) /\ (0 < tIdx (h q) -> 0 < tIdx (h' q)).

Lemma wf_ext : forall h h' nx nx' w, ext nx h h' -> (nx <= nx')%nat -> wf h nx w -> wf h' nx' w.
Proof.
  intros h h' nx nx' w E L (A & B & C). repeat split; intros.
  - destruct (A _ _ H). lia.
  - destruct (A _ _ H) as [? ?]. apply (E q); assumption.
  - destruct (B _ _ H). lia.
  - destruct (B _ _ H) as [? <-]. apply (E q); assumption.
  - specialize (C _ _ H). lia.
Qed.
Lemma wf_new : forall h nx, wf h nx newImap.
Proof. intros h nx. repeat split; contradiction. Qed.
Lemma wf_iset : forall h nx w p, wf h nx w -> (p < nx)%nat -> wf h nx (iset h (tId (h p)) p w).
Proof.
  intros h nx w p (A & B & C) L. unfold iset. destruct (Z.ltb_spec 0 (tIdx (h p))) as [I | I]; cbn; split; [| split | | split]; cbn; intros k q H;
    try (apply put_In in H as [[= -> ->] | H]); eauto.
Qed.
Lemma wf_idel : forall h nx w p, wf h nx w -> wf h nx (idel h p w).
Proof.
  intros h nx w p (A & B & C). unfold idel. destruct (get (tId (h p)) (byId w)); [|repeat split; firstorder].
  split; [|split]; cbn; intros k q H; apply remove_In in H; eauto.
Qed.
Lemma wf_repair : forall h nx w, wf h nx w -> wf h nx (repair h w).
Proof.
  intros h nx w H. unfold repair.
  assert (G : forall l w, (forall x, In x l -> (snd x < nx)%nat) -> wf h nx w -> wf h nx (fold_left (repairOne h) l w)).
  { clear. induction l as [|x l IH]; cbn [fold_left]; intros w L W; [exact W|].
    apply IH; [intros y Hy; apply L; right; exact Hy|].
    destruct W as (A & B & C). unfold repairOne. destruct (get (fst x) (byId w)).
    - destruct (Z.ltb_spec 0 (tIdx (h (snd x)))) as [I | I]; [|repeat split; firstorder].
      split; [|split]; cbn; intros k q Hq.
      + apply put_In in Hq as [[= -> ->] | Hq]; [|eauto]. split; [apply L; left; reflexivity | exact I].
      + eauto.
      + apply remove_In in Hq; eauto.
    - split; [|split]; cbn; intros k q Hq; eauto. apply remove_In in Hq; eauto. }
  apply G; [|exact H]. intros [k q] Hx. destruct H as (_ & _ & C). exact (C _ _ Hx).
Qed.
Lemma wf_iall : forall h nx w q, wf h nx w -> In q (snd (iall h w)) -> (q < nx)%nat /\ 0 < tIdx (h q).
Proof.
  intros h nx w q W H. unfold iall in H. cbn in H. apply in_map_iff in H as ([k q'] & <- & H).
  apply (wf_repair _ _ _ W) in H. exact H.
Qed.

(** What holds in every state. *)
Definition G (n : node) : Prop :=
  wf (hp n) (next n) (wal n) /\ wf (hp n) (next n) (waf n) /\
  (forall q, In q (log n) -> (q < next n)%nat /\ 0 < tIdx (hp n q)) /\
  (forall q, In q (batch n) -> (q < next n)%nat).

Lemma ext_refl : forall nx h, ext nx h h.
Proof. intros nx h q _. auto. Qed.
Lemma ext_assign : forall nx h p i, 0 < i -> ext nx h (assign p i h).
Proof. intros nx h p i H q _. unfold assign, store. destruct (Nat.eqb_spec q p) as [-> | N]; cbn; auto. Qed.
Lemma ext_store : forall nx h t, ext nx h (store nx t h).
Proof. intros nx h t q L. unfold store. destruct (Nat.eqb_spec q nx); [lia|auto]. Qed.

(** No resubmission ever has a request to start: what the walk yields has an index, what is wanted has none. *)
Lemma resubmit_none : forall n, G n -> resubmit n = withWal (repair (hp n) (wal n)) n.
Proof.
  intros n (W & _). unfold resubmit.
  assert (E : filter (fun p => tIdx (hp n p) =? 0) (snd (iall (hp n) (wal n))) = []).
  { destruct (filter (fun p => tIdx (hp n p) =? 0) (snd (iall (hp n) (wal n)))) as [|q l] eqn:E; [reflexivity|].
    assert (H : In q (filter (fun p => tIdx (hp n p) =? 0) (snd (iall (hp n) (wal n))))) by (rewrite E; left; reflexivity).
    apply filter_In in H as [H Z]. apply (wf_iall _ _ _ _ W) in H. apply Z.eqb_eq in Z. lia. }
  unfold iall in *. cbn in E |- *. rewrite E. reflexivity.
Qed.

(** The request p of this ID has no index, is not in the log, not about to be, and its client has heard nothing. *)
Definition P (id : Z) (p : nat) (n : node) : Prop :=
  (p < next n)%nat /\ tId (hp n p) = id /\ tIdx (hp n p) = 0 /\
  (forall q, (q < next n)%nat -> tId (hp n q) = id -> q = p) /\
  ~ In p (log n) /\ ~ In p (batch n) /\ ~ In p (answered n) /\ ~ In p (told n).

(** Steps that leave most of it alone. *)
Lemma G_walSet : forall n p, G n -> (p < next n)%nat -> G (walSet p n).
Proof. intros n p (A & B & C & D) L. split; [|split; [|split]]; cbn; auto. apply wf_iset; assumption. Qed.

Lemma alloc_G : forall n id i, G n -> 0 <= i -> G (alloc id i n).
Proof.
  intros n id i (A & B & C & D) I. pose proof (ext_store (next n) (hp n) (Tk id i)) as E.
  split; [|split; [|split]]; cbn.
  - eapply wf_ext; [exact E | lia | exact A].
  - eapply wf_ext; [exact E | lia | exact B].
  - intros q H. destruct (C q H) as [L K]. split; [lia | apply E; assumption].
  - intros q H. specialize (D q H). lia.
Qed.
Lemma alloc_P : forall n id0 p id i, P id0 p n -> id <> id0 -> P id0 p (alloc id i n).
Proof.
  intros n id0 p id i (A & B & C & D & E & F & H & I) N. unfold P. cbn. unfold store.
  destruct (Nat.eqb_spec p (next n)); [lia|]. repeat split; auto; try lia.
  intros q L Q. destruct (Nat.eqb_spec q (next n)) as [-> | K]; cbn in Q; [congruence|]. apply D; [lia | exact Q].
Qed.

Lemma logOne_G : forall n q, G n -> (q < next n)%nat -> G (logOne n q).
Proof.
  intros n q (A & B & C & D) L. unfold logOne.
  set (h := assign q (Z.of_nat (length (log n)) + 1) (hp n)).
  assert (E : ext (next n) (hp n) h) by (apply ext_assign; lia).
  apply G_walSet; [|exact L]. split; [|split; [|split]]; cbn.
  - eapply wf_ext; [exact E | apply le_n | exact A].
  - eapply wf_ext; [exact E | apply le_n | exact B].
  - intros r H. apply in_app_iff in H as [H | [<- | []]].
    + destruct (C r H) as [X Y]. split; [exact X | apply E; assumption].
    + split; [exact L|]. unfold h, assign, store. rewrite Nat.eqb_refl. cbn. lia.
  - exact D.
Qed.
Lemma assign_P : forall p q i h, q <> p -> assign q i h p = h p.
Proof. intros p q i h N. unfold assign, store. destruct (Nat.eqb_spec p q); [congruence | reflexivity]. Qed.
Lemma assign_id : forall q i h r, tId (assign q i h r) = tId (h r).
Proof. intros q i h r. unfold assign, store. destruct (Nat.eqb_spec r q) as [-> | N]; reflexivity. Qed.

Lemma logOne_P : forall n id0 p q, P id0 p n -> q <> p -> P id0 p (logOne n q).
Proof.
  intros n id0 p q (A & B & C & D & E & F & H & I) N. unfold P. cbn. rewrite assign_P by exact N.
  repeat split; auto.
  - intros r L R. rewrite assign_id in R. apply D; assumption.
  - rewrite in_app_iff. intros [X | [X | []]]; [contradiction | congruence].
Qed.

Lemma flush_G : forall n, G n -> G (flush n).
Proof.
  intros n H. unfold flush.
  assert (K : forall l m, G m -> next m = next n -> (forall q, In q l -> (q < next n)%nat) -> G (fold_left logOne l m)).
  { clear H. induction l as [|x l IH]; cbn [fold_left]; intros m M E L; [exact M|].
    apply IH; [apply logOne_G; [exact M | rewrite E; apply L; left; reflexivity] | exact E | intros q Q; apply L; right; exact Q]. }
  destruct H as (A & B & C & D). apply K; [|reflexivity | exact D].
  split; [|split; [|split]]; cbn; auto. contradiction.
Qed.
Lemma flush_P : forall n id0 p, P id0 p n -> P id0 p (flush n).
Proof.
  intros n id0 p H. unfold flush.
  assert (K : forall l m, P id0 p m -> ~ In p l -> P id0 p (fold_left logOne l m)).
  { clear H. induction l as [|x l IH]; cbn [fold_left]; intros m M L; [exact M|].
    apply IH; [apply logOne_P; [exact M|]|]; intros X; apply L; [left; exact X | right; exact X]. }
  destruct H as (A & B & C & D & E & F & H & I). apply K; [|exact F]. unfold P. cbn. repeat split; auto.
Qed.

Lemma finish_G : forall n p, G n -> (p < next n)%nat -> 0 < tIdx (hp n p) -> G (finish p n).
Proof.
  intros n p (A & B & C & D) L I. unfold finish. destruct (existsb (Nat.eqb p) (fin n)); [exact (conj A (conj B (conj C D)))|]. cbv zeta.
  set (w := if leader n then wal n else waf n).
  set (q := match get (tId (hp n p)) (byId w) with Some q => q | None => p end).
  set (h := assign q (tIdx (hp n p)) (hp n)).
  assert (E : ext (next n) (hp n) h) by (apply ext_assign; exact I).
  pose proof (wf_ext _ _ _ _ _ E (le_n _) A) as A'. pose proof (wf_ext _ _ _ _ _ E (le_n _) B) as B'.
  split; [|split; [|split]]; cbn.
  - unfold w. destruct (leader n); [apply wf_idel|]; exact A'.
  - unfold w. destruct (leader n); [|apply wf_idel]; exact B'.
  - intros r R. destruct (C r R) as [X Y]. split; [exact X | apply E; assumption].
  - exact D.
Qed.
Lemma finish_P : forall n id0 p0 p, G n -> P id0 p0 n -> (p < next n)%nat -> p <> p0 -> P id0 p0 (finish p n).
Proof.
  intros n id0 p0 p (W & V & _) (A & B & C & D & E & F & H & I) L N. unfold finish.
  destruct (existsb (Nat.eqb p) (fin n)); [repeat split; auto|]. cbv zeta.
  set (w := if leader n then wal n else waf n).
  set (q := match get (tId (hp n p)) (byId w) with Some q => q | None => p end).
  assert (Q : q <> p0).
  { unfold q. destruct (get (tId (hp n p)) (byId w)) as [r|] eqn:R; [|exact N].
    apply get_In in R. intros ->. assert (T : tId (hp n p0) = tId (hp n p)).
    { unfold w in R. destruct (leader n); [apply W in R | apply V in R]; apply R. }
    apply N. apply D; [exact L | congruence]. }
  unfold P. cbn. rewrite assign_P by exact Q. repeat split; auto.
  - intros r R S. rewrite assign_id in S. apply D; assumption.
  - intros [X | [X | X]]; [congruence | congruence | contradiction].
Qed.

Lemma nth_log : forall n p, G n -> nth_error (log n) (applied n) = Some p -> In p (log n) /\ (p < next n)%nat /\ 0 < tIdx (hp n p).
Proof. intros n p (_ & _ & C & _) E. apply nth_error_In in E. split; [exact E | apply C, E]. Qed.

Lemma commit_both : forall n, G n -> G (commit n) /\ (forall id0 p0, P id0 p0 n -> P id0 p0 (commit n)).
Proof.
  intros n HG. unfold commit. destruct (nth_error (log n) (applied n)) as [p|] eqn:E; [|auto].
  destruct (nth_log _ _ HG E) as (IL & L & I). destruct HG as (A & B & C & D).
  set (n1 := Node _ _ _ _ _ _ _ (S (applied n)) _ _ _ _ _).
  assert (G1 : G n1) by exact (conj A (conj B (conj C D))).
  destruct (leader n && Nat.eqb p (noop n) && negb (noopDone n)).
  - set (n3 := Node _ _ _ _ true _ _ _ _ _ _ _ _).
    assert (G3 : G n3). { split; [|split; [|split]]; cbn; auto. apply wf_idel. exact A. }
    assert (GF : G (finish p n3)) by (apply finish_G; [exact G3 | exact L | exact I]).
    rewrite resubmit_none by exact GF. split.
    + destruct GF as (A' & B' & C' & D'). split; [|split; [|split]]; cbn; auto. apply wf_repair, A'.
    + intros id0 p0 HP. assert (P3 : P id0 p0 n3) by exact HP.
      assert (PF : P id0 p0 (finish p n3)).
      { apply finish_P; [exact G3 | exact P3 | exact L|]. intros ->. destruct HP as (_ & _ & Z & _). lia. }
      exact PF.
  - split; [apply finish_G; [exact G1 | exact L | exact I]|].
    intros id0 p0 HP. apply finish_P; [exact G1 | exact HP | exact L|]. intros ->. destruct HP as (_ & _ & Z & _). lia.
Qed.

Lemma walSets_both : forall l n, G n -> (forall q, In q l -> (q < next n)%nat) ->
  G (fold_left (fun n q => walSet q n) l n) /\
  (forall id0 p0, P id0 p0 n -> P id0 p0 (fold_left (fun n q => walSet q n) l n)) /\
  next (fold_left (fun n q => walSet q n) l n) = next n /\ hp (fold_left (fun n q => walSet q n) l n) = hp n.
Proof.
  induction l as [|x l IH]; cbn [fold_left]; intros n HG L; [auto|].
  destruct (IH (walSet x n)) as (A & B & C & D).
  - apply G_walSet; [exact HG | apply L; left; reflexivity].
  - intros q H. apply L. right. exact H.
  - split; [exact A|]. split; [|split; [exact C | exact D]]. intros id0 p0 HP. apply B. exact HP.
Qed.

Lemma lead_both : forall n id, G n -> G (lead id n) /\ (forall id0 p0, P id0 p0 n -> id <> id0 -> P id0 p0 (lead id n)).
Proof.
  intros n id HG. unfold lead. destruct (leader n); [auto|].
  pose proof (alloc_G _ id 0 HG (Z.le_refl 0)) as G1.
  set (n2 := Node _ _ true _ false [] _ _ _ _ _ _ _).
  assert (G2 : G n2). { destruct G1 as (A & B & C & D). split; [|split; [|split]]; auto. intros q []. }
  assert (L : (next n < next n2)%nat) by (cbn; lia).
  set (n3 := logOne (walSet (next n) n2) (next n)).
  assert (G3 : G n3). { apply logOne_G; [apply G_walSet; [exact G2 | exact L] | exact L]. }
  destruct (walSets_both (snd (iall (hp n3) (waf n3))) n3 G3) as (A & B & _).
  { intros q H. destruct G3 as (_ & V & _). apply (wf_iall _ _ _ _ V H). }
  split.
  - destruct A as (A & _ & C & D). split; [|split; [|split]]; auto. apply wf_new.
  - intros id0 p0 HP N. pose proof (alloc_P _ _ _ id 0 HP N) as P1.
    assert (P2 : P id0 p0 (walSet (next n) n2)).
    { destruct P1 as (X1 & X2 & X3 & X4 & X5 & X6 & X7 & X8). repeat split; auto. }
    apply (B id0 p0). apply logOne_P; [exact P2|]. destruct HP as (LT & _). lia.
Qed.



Lemma step_both : forall n e, G n -> G (step n e) /\ (forall id0 p0, P id0 p0 n -> ~ about e id0 -> P id0 p0 (step n e)).
Proof.
  intros n e HG. destruct e as [id| | |id| |id|k|id i]; cbn [step about].
  - pose proof (alloc_G _ id 0 HG (Z.le_refl 0)) as G1. split.
    + destruct (leader n).
      * unfold replicate. cbn [noopDone alloc]. destruct (noopDone n).
        -- destruct G1 as (A & B & C & D). split; [|split; [|split]]; auto. cbn. intros q H. apply in_app_iff in H as [H | [<- | []]]; [apply D, H | lia].
        -- apply G_walSet; [exact G1 | cbn; lia].
      * destruct G1 as (A & B & C & D). split; [|split; [|split]]; auto. apply wf_iset; [exact B | cbn; lia].
    + intros id0 p0 HP N. pose proof (alloc_P _ _ _ id 0 HP N) as P1. destruct (leader n); [|exact P1].
      unfold replicate. cbn [noopDone alloc]. destruct (noopDone n); [|exact P1].
      destruct P1 as (X1 & X2 & X3 & X4 & X5 & X6 & X7 & X8). repeat split; auto.
      cbn. rewrite in_app_iff. intros [X | [X | []]]; [apply X6, X |]. destruct HP as (L & _). lia.
  - destruct (leader n); [|auto]. split; [apply flush_G, HG | intros id0 p0 HP _; apply flush_P, HP].
  - destruct (commit_both n HG) as [A B]. auto.
  - destruct (lead_both n id HG) as [A B]. auto.
  - unfold stepDown. destruct (leader n); [|auto]. destruct HG as (A & B & C & D). split.
    + split; [|split; [|split]]; cbn; auto; [apply wf_new | contradiction].
    + intros id0 p0 (X1 & X2 & X3 & X4 & X5 & X6 & X7 & X8) _. unfold P. cbn [hp next log batch answered told]. repeat split; auto.
      rewrite !in_app_iff. intros [X | [X | X]]; [contradiction | contradiction|].
      apply (wf_iall _ _ _ _ A) in X. lia.
  - destruct (leader n); [auto|]. set (i := Z.of_nat (length (log n)) + 1).
    assert (I : 0 < i) by (unfold i; lia).
    pose proof (alloc_G _ id i HG (Z.lt_le_incl _ _ I)) as (A & B & C & D). split.
    + split; [|split; [|split]]; auto. cbn [log next hp]. intros q H. apply in_app_iff in H as [H | [<- | []]]; [apply C, H|].
      cbn. unfold store. rewrite Nat.eqb_refl. split; [lia | exact I].
    + intros id0 p0 HP N. pose proof (alloc_P _ _ _ id i HP N) as (X1 & X2 & X3 & X4 & X5 & X6 & X7 & X8). repeat split; auto.
      cbn. rewrite in_app_iff. intros [X | [X | []]]; [apply X5, X|]. destruct HP as (L & _). lia.
  - destruct (leader n); [auto|]. destruct HG as (A & B & C & D). split.
    + split; [|split; [|split]]; auto. cbn [log]. intros q H. apply C. rewrite <- (firstn_skipn (Nat.max k (applied n)) (log n)). apply in_app_iff. left. exact H.
    + intros id0 p0 (X1 & X2 & X3 & X4 & X5 & X6 & X7 & X8) _. repeat split; auto. cbn [log]. intros H. apply X5.
      rewrite <- (firstn_skipn (Nat.max k (applied n)) (log n)). apply in_app_iff. left. exact H.
  - destruct (leader n) eqn:EL; [auto|]. destruct (get id (byId (waf n))) as [q|] eqn:E; [|auto].
    destruct (Z.ltb_spec 0 i) as [I | I]; [|auto].
    destruct HG as (A & B & C & D). pose proof (get_In _ _ _ E) as IN. destruct B as (B1 & B2 & B3). destruct (B2 _ _ IN) as [L T].
    assert (B : wf (hp n) (next n) (waf n)) by (split; [|split]; assumption).
    set (m := Node _ _ _ _ _ _ _ _ _ _ _ _ _).
    assert (EX : ext (next n) (hp n) (assign q i (hp n))) by (apply ext_assign; exact I).
    assert (GM : G m).
    { split; [|split; [|split]]; cbn; auto.
      - eapply wf_ext; [exact EX | apply le_n | exact A].
      - eapply wf_ext; [exact EX | apply le_n | exact B].
      - intros r R. destruct (C r R) as [X Y]. split; [exact X | apply EX; assumption]. }
    split.
    + apply finish_G; [exact GM | exact L|]. cbn. unfold assign, store. rewrite Nat.eqb_refl. exact I.
    + intros id0 p0 HP N. assert (NQ : q <> p0). { intros ->. destruct HP as (_ & X & _). congruence. }
      apply finish_P; [exact GM | | exact L | exact NQ].
      destruct HP as (X1 & X2 & X3 & X4 & X5 & X6 & X7 & X8). unfold P. cbn. rewrite assign_P by exact NQ. repeat split; auto.
      intros r R S. rewrite assign_id in S. apply X4; assumption.
Qed.

Lemma G_start : G start.
Proof. split; [|split; [|split]]; try apply wf_new; intros q []. Qed.
Lemma run_G : forall es n, G n -> G (run n es).
Proof. induction es as [|e es IH]; intros n H; [exact H|]. apply IH. apply step_both, H. Qed.
Lemma run_P : forall es n id0 p0, G n -> P id0 p0 n -> (forall e, In e es -> ~ about e id0) -> P id0 p0 (run n es).
Proof.
  induction es as [|e es IH]; intros n id0 p0 HG HP N; [exact HP|].
  apply IH; [apply step_both, HG | apply step_both; [exact HG | exact HP | apply N; left; reflexivity] | intros x X; apply N; right; exact X].
Qed.

(** Which IDs there are: those that events brought. *)
Definition keeps (n m : node) : Prop := next m = next n /\ forall q, tId (hp m q) = tId (hp n q).
Lemma keeps_trans : forall a b c, keeps a b -> keeps b c -> keeps a c.
Proof. intros a b c [A B] [C D]. split; [congruence|]. intros q. rewrite D. apply B. Qed.
Lemma keeps_refl : forall a, keeps a a.
Proof. intros a. split; auto. Qed.
Lemma keeps_logOne : forall n q, keeps n (logOne n q).
Proof. intros n q. split; [reflexivity|]. intros r. cbn. apply assign_id. Qed.
Lemma keeps_finish : forall n p, keeps n (finish p n).
Proof.
  intros n p. unfold finish. destruct (existsb (Nat.eqb p) (fin n)); [apply keeps_refl|].
  split; [reflexivity|]. intros r. cbn. apply assign_id.
Qed.
Lemma keeps_fold : forall (f : node -> nat -> node) l n, (forall m q, keeps m (f m q)) -> keeps n (fold_left f l n).
Proof.
  intros f l. induction l as [|x l IH]; intros n H; [apply keeps_refl|]. cbn [fold_left].
  eapply keeps_trans; [apply H | apply IH, H].
Qed.
Lemma keeps_resubmit : forall n, keeps n (resubmit n).
Proof.
  intros n. unfold resubmit. destruct (iall (hp n) (wal n)) as [w l].
  apply (keeps_trans _ (withWal w n)); [split; reflexivity|]. apply keeps_fold. intros m q. unfold replicate. destruct (noopDone m); split; reflexivity.
Qed.
Lemma keeps_commit : forall n, keeps n (commit n).
Proof.
  intros n. unfold commit. destruct (nth_error (log n) (applied n)) as [p|]; [|apply keeps_refl].
  destruct (leader n && Nat.eqb p (noop n) && negb (noopDone n)).
  - eapply keeps_trans; [|apply keeps_resubmit]. eapply keeps_trans; [|apply keeps_finish]. split; reflexivity.
  - eapply keeps_trans; [|apply keeps_finish]. split; reflexivity.
Qed.

Lemma step_ids : forall n e id0, (forall q, (q < next n)%nat -> tId (hp n q) <> id0) -> ~ about e id0 ->
  forall q, (q < next (step n e))%nat -> tId (hp (step n e) q) <> id0.
Proof.
  intros n e id0 H N.
  assert (K : forall m, keeps n m -> forall q, (q < next m)%nat -> tId (hp m q) <> id0).
  { intros m [A B] q L. rewrite B. apply H. lia. }
  assert (A : forall id i m, id <> id0 -> keeps (alloc id i n) m -> forall q, (q < next m)%nat -> tId (hp m q) <> id0).
  { intros id i m NE [E F] q L. rewrite F. cbn in E |- *. unfold store. destruct (Nat.eqb_spec q (next n)) as [-> | X]; [exact NE | apply H; lia]. }
  destruct e as [id| | |id| |id|k|id i]; cbn [step about] in *.
  - apply (A id 0); [exact N|]. destruct (leader n); [|split; reflexivity]. unfold replicate. cbn [noopDone alloc]. destruct (noopDone n); split; reflexivity.
  - apply K. destruct (leader n); [|apply keeps_refl]. unfold flush. apply (keeps_trans _ (withBatch [] n)); [split; reflexivity|]. apply keeps_fold. apply keeps_logOne.
  - apply K, keeps_commit.
  - unfold lead. destruct (leader n); [exact H|]. apply (A id 0); [exact N|].
    set (n2 := Node _ _ true _ false [] _ _ _ _ _ _ _). set (n3 := logOne (walSet (next n) n2) (next n)).
    apply (keeps_trans _ n3).
    + apply (keeps_trans _ (walSet (next n) n2)); [split; reflexivity | apply keeps_logOne].
    + eapply keeps_trans; [apply (keeps_fold (fun n q => walSet q n)); intros m q; split; reflexivity | split; reflexivity].
  - apply K. unfold stepDown. destruct (leader n); split; reflexivity.
  - destruct (leader n); [exact H|]. apply (A id (Z.of_nat (length (log n)) + 1)); [exact N|]. split; reflexivity.
  - apply K. destruct (leader n); split; reflexivity.
  - apply K. destruct (leader n); [apply keeps_refl|]. destruct (get id (byId (waf n))) as [q|]; [|apply keeps_refl].
    destruct (0 <? i); [|apply keeps_refl]. eapply keeps_trans; [|apply keeps_finish]. split; [reflexivity|]. intros r. cbn. apply assign_id.
Qed.
Lemma run_ids : forall es n id0, (forall q, (q < next n)%nat -> tId (hp n q) <> id0) -> (forall e, In e es -> ~ about e id0) ->
  forall q, (q < next (run n es))%nat -> tId (hp (run n es) q) <> id0.
Proof.
  induction es as [|e es IH]; intros n id0 H N; [exact H|].
  apply IH; [apply step_ids; [exact H | apply N; left; reflexivity] | intros x X; apply N; right; exact X].
Qed.
