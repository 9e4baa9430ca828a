(** Requests that arrive before a leader's first commit, or at a follower that becomes leader. *)
From Coq Require Import List ZArith Bool Arith Lia.
Import ListNotations.
From Verif Require Import Wait_Model Wait_Spec Wait_Proofs.
Local Open Scope Z_scope.

(** Clients that heard something are those of tickets that exist. *)
Definition H (n : node) : Prop := forall q, In q (answered n) \/ In q (told n) -> (q < next n)%nat.

Lemma H_same : forall n m, answered m = answered n -> told m = told n -> (next n <= next m)%nat -> H n -> H m.
Proof. intros n m A B C D q Q. rewrite A, B in Q. specialize (D q Q). lia. Qed.

Definition quiet (n m : node) : Prop := answered m = answered n /\ told m = told n /\ next m = next n.
Lemma quiet_fold : forall (f : node -> nat -> node) l n, (forall m q, quiet m (f m q)) -> quiet n (fold_left f l n).
Proof.
  intros f l. induction l as [|x l IH]; intros n K; [repeat split|]. cbn [fold_left].
  destruct (K n x) as (A & B & C). destruct (IH (f n x) K) as (D & E & F). repeat split; congruence.
Qed.

Lemma finish_H : forall n p, G n -> H n -> (p < next n)%nat -> H (finish p n).
Proof.
  intros n p (A & B & _) K L. unfold finish. destruct (existsb (Nat.eqb p) (fin n)); [exact K|]. cbv zeta.
  set (w := if leader n then wal n else waf n). intros r. cbn [answered told next]. intros [[<- | [<- | R]] | R].
  - destruct (get (tId (hp n p)) (byId w)) as [q|] eqn:E; [|exact L]. apply get_In in E. unfold w in E.
    destruct (leader n); [apply A in E | apply B in E]; apply E.
  - exact L.
  - apply K. left. exact R.
  - apply K. right. exact R.
Qed.

Lemma step_H : forall n e, G n -> H n -> H (step n e).
Proof.
  intros n e HG K. destruct e as [id| | |id| |id|k|id i]; cbn [step].
  - apply (H_same n); try exact K; destruct (leader n); try reflexivity; unfold replicate; cbn [noopDone alloc]; destruct (noopDone n); cbn; try reflexivity; lia.
  - destruct (leader n); [|exact K]. destruct (quiet_fold logOne (batch n) (withBatch [] n)) as (A & B & C); [intros m q; repeat split|].
    apply (H_same n); [exact A | exact B | unfold flush; rewrite C; apply le_n | exact K].
  - unfold commit. destruct (nth_error (log n) (applied n)) as [p|] eqn:E; [|exact K].
    destruct (nth_log _ _ HG E) as (IL & L & I). destruct HG as (A & B & C & D).
    set (n1 := Node _ _ _ _ _ _ _ (S (applied n)) _ _ _ _ _).
    assert (G1 : G n1) by exact (conj A (conj B (conj C D))).
    destruct (leader n && Nat.eqb p (noop n) && negb (noopDone n)).
    + set (n3 := Node _ _ _ _ true _ _ _ _ _ _ _ _).
      assert (G3 : G n3). { split; [|split; [|split]]; cbn; auto. apply wf_idel. exact A. }
      rewrite resubmit_none by (apply finish_G; [exact G3 | exact L | exact I]).
      apply (H_same (finish p n3)); try reflexivity. apply finish_H; [exact G3 | exact K | exact L].
    + apply finish_H; [exact G1 | exact K | exact L].
  - unfold lead. destruct (leader n); [exact K|].
    set (n2 := Node _ _ true _ false [] _ _ _ _ _ _ _). set (n3 := logOne (walSet (next n) n2) (next n)).
    destruct (quiet_fold (fun n q => walSet q n) (snd (iall (hp n3) (waf n3))) n3) as (A & B & C); [intros m q; repeat split|].
    apply (H_same n); [exact A | exact B | cbn [withWaf next]; rewrite C; cbn; lia | exact K].
  - unfold stepDown. destruct (leader n); [|exact K]. destruct HG as (A & B & C & D). intros q. cbn [answered told next]. rewrite !in_app_iff.
    intros [Q | [Q | [Q | Q]]]; [apply K; left; exact Q | apply K; right; exact Q | apply D, Q | apply (wf_iall _ _ _ _ A Q)].
  - destruct (leader n); [exact K|]. apply (H_same n); try reflexivity; [cbn; lia | exact K].
  - destruct (leader n); [exact K|]. apply (H_same n); try reflexivity. exact K.
  - destruct (leader n) eqn:EL; [exact K|]. destruct (get id (byId (waf n))) as [q|] eqn:E; [|exact K].
    destruct (Z.ltb_spec 0 i) as [I | I]; [|exact K].
    destruct HG as (A & B & C & D). pose proof (get_In _ _ _ E) as IN. destruct B as (B1 & B2 & B3). destruct (B2 _ _ IN) as [L T].
    assert (B : wf (hp n) (next n) (waf n)) by (split; [|split]; assumption).
    set (m := Node _ _ _ _ _ _ _ _ _ _ _ _ _).
    assert (EX : ext (next n) (hp n) (assign q i (hp n))) by (apply ext_assign; exact I).
    apply finish_H; [|exact K | exact L].
    split; [|split; [|split]]; cbn; auto.
    + eapply wf_ext; [exact EX | apply le_n | exact A].
    + eapply wf_ext; [exact EX | apply le_n | exact B].
    + intros r R. destruct (C r R) as [X Y]. split; [exact X | apply EX; assumption].
Qed.
Lemma run_H : forall es n, G n -> H n -> H (run n es).
Proof. induction es as [|e es IH]; intros n A B; [exact B|]. apply IH; [apply step_both, A | apply step_H; assumption]. Qed.
Lemma H_start : H start.
Proof. intros q [[] | []]. Qed.

(** A follower has nothing in WaitingAtLeader. *)
Definition F (n : node) : Prop := leader n = false -> wal n = newImap.
Lemma finish_F : forall n p, F n -> F (finish p n).
Proof.
  intros n p K. unfold finish. destruct (existsb (Nat.eqb p) (fin n)); [exact K|]. cbv zeta. unfold F. cbn [leader wal]. intros E. rewrite E. apply K, E.
Qed.
Lemma leader_fold : forall (f : node -> nat -> node) l n, (forall m q, leader (f m q) = leader m) -> leader (fold_left f l n) = leader n.
Proof. intros f l. induction l as [|x l IH]; intros n K; [reflexivity|]. cbn [fold_left]. rewrite IH by exact K. apply K. Qed.
Lemma resubmit_leader : forall n, leader (resubmit n) = leader n.
Proof.
  intros n. unfold resubmit. destruct (iall (hp n) (wal n)) as [w l]. rewrite leader_fold; [reflexivity|].
  intros m q. unfold replicate. destruct (noopDone m); reflexivity.
Qed.
Lemma finish_leader : forall n p, leader (finish p n) = leader n.
Proof. intros n p. unfold finish. destruct (existsb (Nat.eqb p) (fin n)); reflexivity. Qed.
Lemma step_F : forall n e, F n -> F (step n e).
Proof.
  intros n e K. destruct e as [id| | |id| |id|k|id i]; cbn [step].
  - destruct (leader n) eqn:E.
    + intros X. exfalso. unfold replicate in X. cbn [noopDone alloc] in X. destruct (noopDone n); cbn in X; congruence.
    + intros _. apply K, E.
  - destruct (leader n) eqn:E; [|exact K]. intros X. unfold flush in X. rewrite leader_fold in X by reflexivity. cbn in X. congruence.
  - unfold commit. destruct (nth_error (log n) (applied n)) as [p|]; [|exact K].
    destruct (leader n && Nat.eqb p (noop n) && negb (noopDone n)) eqn:E.
    + apply andb_prop in E as [E _]. apply andb_prop in E as [E _].
      intros X. rewrite resubmit_leader, finish_leader in X. cbn in X. congruence.
    + apply finish_F. exact K.
  - unfold lead. destruct (leader n) eqn:E; [exact K|]. intros X. cbn [withWaf leader] in X. rewrite leader_fold in X by reflexivity. cbn in X. discriminate.
  - unfold stepDown. destruct (leader n); [intros _; reflexivity | exact K].
  - destruct (leader n) eqn:E; [exact K|]. intros _. apply K, E.
  - destruct (leader n) eqn:E; [exact K|]. intros _. apply K, E.
  - destruct (leader n) eqn:E; [exact K|]. destruct (get id (byId (waf n))); [|exact K]. destruct (0 <? i); [|exact K].
    apply finish_F. intros _. apply K, E.
Qed.
Lemma run_F : forall es n, F n -> F (run n es).
Proof. induction es as [|e es IH]; intros n K; [exact K|]. apply IH, step_F, K. Qed.
Lemma F_start : F start.
Proof. intros _. reflexivity. Qed.

Lemma run_app : forall n a b, run n (a ++ b) = run (run n a) b.
Proof. intros n a b. apply fold_left_app. Qed.

(** A request of a new ID that is not replicated on arrival. *)
Lemma fresh_P : forall n id, G n -> H n -> (forall q, (q < next n)%nat -> tId (hp n q) <> id) -> leader n = false \/ noopDone n = false ->
  P id (next n) (step n (EReq id)).
Proof.
  intros n id (A & B & C & D) K U L.
  assert (S : P id (next n) (alloc id 0 n)).
  { unfold P. cbn. unfold store. rewrite Nat.eqb_refl. cbn. repeat split; auto.
    - intros q Q T. destruct (Nat.eqb_spec q (next n)) as [-> | N]; [reflexivity|]. exfalso. apply (U q); [lia | exact T].
    - intros X. apply C in X. lia.
    - intros X. apply D in X. lia.
    - intros X. specialize (K _ (or_introl X)). lia.
    - intros X. specialize (K _ (or_intror X)). lia. }
  cbn [step]. destruct (leader n); [|exact S]. destruct L as [L | L]; [discriminate|].
  unfold replicate. cbn [noopDone alloc]. rewrite L. exact S.
Qed.

Lemma stalled_P : forall es1 id es2, (forall e, In e (es1 ++ es2) -> ~ about e id) ->
  leader (run start es1) = false \/ noopDone (run start es1) = false ->
  P id (next (run start es1)) (run start (es1 ++ EReq id :: es2)).
Proof.
  intros es1 id es2 N L. rewrite run_app. cbn [run fold_left]. change (P id (next (run start es1)) (run (step (run start es1) (EReq id)) es2)).
  pose proof (run_G es1 _ G_start) as HG. apply run_P.
  - apply step_both, HG.
  - apply fresh_P; [exact HG | apply run_H; [apply G_start | apply H_start] | | exact L].
    apply run_ids; [cbn; intros q Q; lia|]. intros e E. apply N, in_app_iff. left. exact E.
  - intros e E. apply N, in_app_iff. right. exact E.
Qed.

Lemma P_nothing : forall id p n, G n -> H n -> P id p n -> ~ logged id n /\ ~ batched id n /\ ~ heard id n.
Proof.
  intros id p n (_ & _ & C & D) K (A & B & Z & U & L & M & N & O). repeat split.
  - intros (q & Q & T). apply L. rewrite <- (U q); [exact Q | apply C, Q | exact T].
  - intros (q & Q & T). apply M. rewrite <- (U q); [exact Q | apply D, Q | exact T].
  - intros (q & Q & T). specialize (K q Q). rewrite (U q K T) in Q. destruct Q; contradiction.
Qed.

(** Nothing of the ID is left after taking over. *)
Lemma lead_drops : forall n id p id', G n -> F n -> leader n = false -> P id p n -> id' <> id -> ~ waits id (lead id' n).
Proof.
  intros n id p id' HG K E HP N. unfold lead. rewrite E.
  set (n2 := Node _ _ true _ false [] _ _ _ _ _ _ _). set (n3 := logOne (walSet (next n) n2) (next n)).
  assert (W : wal n2 = newImap) by (apply K, E).
  pose proof (alloc_G _ id' 0 HG (Z.le_refl 0)) as G1.
  assert (G2 : G n2). { destruct G1 as (A & B & C & D). split; [|split; [|split]]; auto. intros q []. }
  assert (L : (next n < next n2)%nat) by (cbn; lia).
  assert (G3 : G n3). { apply logOne_G; [apply G_walSet; [exact G2 | exact L] | exact L]. }
  assert (P3 : P id p n3).
  { apply logOne_P; [|destruct HP as (LT & _); lia]. pose proof (alloc_P _ _ _ id' 0 HP N) as (X1 & X2 & X3 & X4 & X5 & X6 & X7 & X8). repeat split; auto. }
  assert (I3 : tId (hp n3 (next n)) = id').
  { unfold n3. cbn. rewrite assign_id. unfold store. rewrite Nat.eqb_refl. reflexivity. }
  assert (W3 : get id (byId (wal n3)) = None).
  { unfold n3, logOne, walSet, withWal. cbn [wal hp].
    assert (R : forall h j q w, byId (iset h j q w) = put j q (byId w)) by (intros h j q w; unfold iset; destruct (0 <? tIdx (h q)); reflexivity).
    rewrite !R, !get_put, W, assign_id. cbn. unfold store. rewrite Nat.eqb_refl. cbn. destruct (Z.eqb_spec id' id); [contradiction | reflexivity]. }
  assert (V : forall q, In q (snd (iall (hp n3) (waf n3))) -> tId (hp n3 q) <> id).
  { intros q Q T. destruct G3 as (_ & V & _). destruct (wf_iall _ _ _ _ V Q) as [X Y].
    destruct P3 as (_ & _ & Z & U & _). rewrite (U q X T) in Y. lia. }
  assert (Q : forall l m, hp m = hp n3 -> get id (byId (wal m)) = None -> (forall q, In q l -> tId (hp n3 q) <> id) ->
    get id (byId (wal (fold_left (fun n q => walSet q n) l m))) = None).
  { induction l as [|x l IH]; intros m A B C; [exact B|]. cbn [fold_left]. apply IH; [exact A | | intros q X; apply C; right; exact X].
    unfold walSet, withWal. cbn [wal].
    assert (R : forall h j q w, byId (iset h j q w) = put j q (byId w)) by (intros h j q w; unfold iset; destruct (0 <? tIdx (h q)); reflexivity).
    rewrite R, get_put. destruct (Z.eqb_spec (tId (hp m x)) id) as [T | T]; [|exact B].
    exfalso. apply (C x (or_introl eq_refl)). rewrite <- A. exact T. }
  intros [X | X]; apply X; [|reflexivity]. cbn [withWaf wal]. apply Q; [reflexivity | exact W3 | exact V].
Qed.

(** What is replicated at once. *)
Lemma fold_log : forall l n, log (fold_left logOne l n) = log n ++ l.
Proof.
  induction l as [|x l IH]; intros n; cbn [fold_left]; [rewrite app_nil_r; reflexivity|].
  rewrite IH. cbn. rewrite <- app_assoc. reflexivity.
Qed.
Lemma flush_log : forall n, log (flush n) = log n ++ batch n.
Proof. intros n. unfold flush. rewrite fold_log. reflexivity. Qed.
Lemma flush_keeps : forall n, keeps n (flush n).
Proof. intros n. unfold flush. apply (keeps_trans _ (withBatch [] n)); [split; reflexivity|]. apply keeps_fold. apply keeps_logOne. Qed.
