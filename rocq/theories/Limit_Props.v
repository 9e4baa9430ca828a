(** C16: the TLS listener never exceeds its connection limit. C39: what a rejected
    client costs. *)
From Coq Require Import List Bool Arith Lia.
From Verif Require Import Limit_Model.
Import ListNotations.

(** * Counting. *)
Definition openConns (cs : list conn) : nat := length (filter c_open cs).
(** the slot of a connection is given back when its first Close has finished *)
Definition unreleased (cs : list conn) : nat := length (filter (fun c => match c_once c with ODone => false | _ => true end) cs).
(** Accept calls that hold a slot *)
Definition holding (p : pc) : bool := match p with AIn | ARel => true | _ => false end.
Definition inFlight (l : list pc) : nat := length (filter holding l).

Lemma count_upd : forall A (f : A -> bool) l n x y, nth_error l n = Some y ->
  length (filter f (upd n x l)) + (if f y then 1 else 0) = length (filter f l) + (if f x then 1 else 0).
Proof.
  induction l as [|z l IH]; intros [|n] x y H; try discriminate; simpl in *.
  - injection H as ->. destruct (f x), (f y); simpl; lia.
  - specialize (IH _ x _ H). destruct (f z); simpl; lia.
Qed.
Lemma nth_upd_eq : forall A (l : list A) n x y, nth_error l n = Some y -> nth_error (upd n x l) n = Some x.
Proof. induction l as [|z l IH]; intros [|n] x y H; try discriminate; simpl in *; eauto. Qed.
Lemma nth_upd_neq : forall A (l : list A) n m x, n <> m -> nth_error (upd n x l) m = nth_error l m.
Proof. induction l as [|z l IH]; intros [|n] [|m] x N; simpl; auto; congruence. Qed.
Lemma upd_len : forall A (l : list A) n x, length (upd n x l) = length l.
Proof. induction l as [|z l IH]; intros [|n] x; simpl; auto. Qed.

Record inv (n : nat) (s : st) : Prop := mkInv {
  v_sem : sem s = inFlight (th s) + unreleased (conns s);
  v_cap : sem s <= n;
  v_do : forall t i, nth_error (th s) t = Some (CDoing i) -> exists c, nth_error (conns s) i = Some c /\ c_once c = ORunning;
  v_uniq : forall t u i, nth_error (th s) t = Some (CDoing i) -> nth_error (th s) u = Some (CDoing i) -> t = u;
  v_open : forall i c, nth_error (conns s) i = Some c -> c_open c = true -> c_once c = OFresh;
  v_once : forall t i, nth_error (th s) t = Some (COnce i) -> exists c, nth_error (conns s) i = Some c /\ c_open c = false;
  v_close : forall t i, nth_error (th s) t = Some (CClose i) -> exists c, nth_error (conns s) i = Some c;
  v_ldo : forall t, nth_error (th s) t = Some LDoing -> lonce s = ORunning;
  v_ldo1 : forall t u, nth_error (th s) t = Some LDoing -> nth_error (th s) u = Some LDoing -> t = u;
  v_done : done s = true -> lonce s = ODone;
  v_boom : boom s = false }.

Lemma nth_upd_inv : forall A (l : list A) t u x y z, nth_error l t = Some z -> nth_error (upd t x l) u = Some y ->
  (u = t /\ y = x) \/ (u <> t /\ nth_error l u = Some y).
Proof.
  intros A l t u x y z H0 H. destruct (Nat.eq_dec u t) as [->|N].
  - left. rewrite (nth_upd_eq _ _ _ _ _ H0) in H. injection H as ->. auto.
  - right. rewrite nth_upd_neq in H by auto. auto.
Qed.
Ltac thc := match goal with H0 : nth_error ?l ?t = Some _, H : nth_error (upd ?t _ ?l) _ = Some _ |- _ =>
  let X := fresh in let Y := fresh in destruct (nth_upd_inv _ _ _ _ _ _ _ H0 H) as [(X & Y)|(X & Y)]; clear H; [try discriminate Y; try (injection Y as Y); subst|] end.
Ltac thz NE Z := match goal with H0 : nth_error ?l ?t = Some _, H : nth_error (upd ?t _ ?l) _ = Some _ |- _ =>
  let Y := fresh in destruct (nth_upd_inv _ _ _ _ _ _ _ H0 H) as [(NE & Y)|(NE & Z)]; clear H; [try discriminate Y; try (injection Y as Y); subst|] end.
Lemma nth_app_l : forall A (l : list A) x i y, nth_error (l ++ [x]) i = Some y -> nth_error l i = Some y \/ (i = length l /\ y = x).
Proof.
  intros A l x i y H. destruct (Nat.lt_ge_cases i (length l)) as [L|L].
  - left. now rewrite nth_error_app1 in H.
  - right. rewrite nth_error_app2 in H by auto. destruct (i - length l) eqn:E; simpl in H; [|destruct n; discriminate].
    injection H as ->. split; auto. lia.
Qed.
Lemma nth_app_some : forall A (l : list A) x i y, nth_error l i = Some y -> nth_error (l ++ [x]) i = Some y.
Proof. intros A l x i y H. rewrite nth_error_app1; auto. apply nth_error_Some. congruence. Qed.

Lemma step_inv : forall n ac s s', inv n s -> step n ac s s' -> inv n s'.
Proof.
  intros n ac s s' I S. destruct I as [Vs Vc Vd Vu Vo Vn Vl Ve V1 Vn2 Vb].
  destruct S; simpl in *;
   match goal with H : @nth_error pc ?l ?t = Some _ |- _ => pose proof (fun x => count_upd _ holding _ _ x _ H) as CT end;
   unfold inFlight, unreleased in *; simpl in CT.
  all: try match goal with |- inv _ (mkSt _ _ _ _ _ (upd _ ?x _) _ _) => specialize (CT x); simpl in CT end.
  (* steps that change no connection *)
  all: try (constructor; cbn [sem done lonce lclosed conns th boom hist]; unfold inFlight, unreleased;
     [lia|lia| | | exact Vo | | | | | assumption | assumption];
     intros; repeat thc; eauto; try congruence; fail).
  - (* handed out *)
    constructor; cbn [sem done lonce lclosed conns th boom hist]; unfold inFlight, unreleased; auto.
    + rewrite filter_app, app_length. simpl. lia.
    + intros u i X. thz NE Z. destruct (Vd _ _ Z) as (c & A & B). exists c. split; auto. now apply nth_app_some.
    + intros u v i X Y. repeat thc; eauto.
    + intros i c X Y. apply nth_app_l in X as [X|(-> & ->)]; eauto.
    + intros u i X. thz NE Z. destruct (Vn _ _ Z) as (c & A & B). exists c. split; auto. now apply nth_app_some.
    + intros u i X. thz NE Z. destruct (Vl _ _ Z) as (c & A). exists c. now apply nth_app_some.
    + intros u X. thz NE Z. eauto.
    + intros u v X Y. repeat thc; eauto.
  - (* conn.Close called *)
    constructor; cbn [sem done lonce lclosed conns th boom hist]; unfold inFlight, unreleased; auto; try lia.
    + intros u j X. thz NE Z. eauto.
    + intros u v j X Y. repeat thc; eauto.
    + intros u j X. thz NE Z. eauto.
    + intros u j X. thz NE Z; eauto. destruct (nth_error cs i) eqn:E; eauto. apply nth_error_None in E. lia.
    + intros u X. thz NE Z. eauto.
    + intros u v X Y. repeat thc; eauto.
  - (* underlying connection closed *)
    pose proof (count_upd _ (fun c => match c_once c with ODone => false | _ => true end) _ _ (mkConn false (c_once c)) _ H0) as CC.
    simpl in CC.
    constructor; cbn [sem done lonce lclosed conns th boom hist]; unfold inFlight, unreleased; auto.
    + destruct (c_once c); lia.
    + intros u j X. thz NE Z. destruct (Vd _ _ Z) as (c2 & A & B). destruct (Nat.eq_dec j i) as [->|N].
      * rewrite H0 in A. injection A as <-. exists (mkConn false (c_once c)). split; auto. eapply nth_upd_eq; eauto.
      * exists c2. split; auto. now rewrite nth_upd_neq by auto.
    + intros u v j X Y. repeat thc; eauto.
    + intros j c2 X Y. destruct (nth_upd_inv _ _ _ _ _ _ _ H0 X) as [(-> & ->)|(N & Z)]; [discriminate|eauto].
    + intros u j X. thz NE Z.
      * exists (mkConn false (c_once c)). split; auto. eapply nth_upd_eq; eauto.
      * destruct (Vn _ _ Z) as (c2 & A & B). destruct (Nat.eq_dec j i) as [->|N].
        -- exists (mkConn false (c_once c)). split; auto. eapply nth_upd_eq; eauto.
        -- exists c2. split; auto. now rewrite nth_upd_neq by auto.
    + intros u j X. thz NE Z. destruct (Vl _ _ Z) as (c2 & A). destruct (Nat.eq_dec j i) as [->|N].
      * eexists. eapply nth_upd_eq; eauto.
      * exists c2. now rewrite nth_upd_neq by auto.
    + intros u X. thz NE Z. eauto.
    + intros u v X Y. repeat thc; eauto.
  - (* the once begins *)
    pose proof (count_upd _ (fun c => match c_once c with ODone => false | _ => true end) _ _ (mkConn (c_open c) ORunning) _ H0) as CC.
    simpl in CC. rewrite H1 in CC.
    constructor; cbn [sem done lonce lclosed conns th boom hist]; unfold inFlight, unreleased; auto.
    + lia.
    + intros u j X. thz NE Z.
      * exists (mkConn (c_open c) ORunning). split; auto. eapply nth_upd_eq; eauto.
      * destruct (Vd _ _ Z) as (c2 & A & B). destruct (Nat.eq_dec j i) as [->|N].
        -- rewrite H0 in A. injection A as <-. congruence.
        -- exists c2. split; auto. now rewrite nth_upd_neq by auto.
    + intros u v j X Y. repeat thc; eauto.
      * match goal with X : nth_error l _ = Some (CDoing _) |- _ => destruct (Vd _ _ X) as (c2 & A & B) end. congruence.
      * match goal with X : nth_error l _ = Some (CDoing _) |- _ => destruct (Vd _ _ X) as (c2 & A & B) end. congruence.
    + intros j c2 X Y. destruct (nth_upd_inv _ _ _ _ _ _ _ H0 X) as [(-> & ->)|(N & Z)]; [|eauto]. simpl in Y.
      destruct (Vn _ _ H) as (c3 & A & B). congruence.
    + intros u j X. thz NE Z. destruct (Vn _ _ Z) as (c2 & A & B). destruct (Nat.eq_dec j i) as [->|N].
      * exists (mkConn (c_open c) ORunning). split; [eapply nth_upd_eq; eauto|]. simpl. congruence.
      * exists c2. split; auto. now rewrite nth_upd_neq by auto.
    + intros u j X. thz NE Z. destruct (Vl _ _ Z) as (c2 & A). destruct (Nat.eq_dec j i) as [->|N].
      * eexists. eapply nth_upd_eq; eauto.
      * exists c2. now rewrite nth_upd_neq by auto.
    + intros u X. thz NE Z. eauto.
    + intros u v X Y. repeat thc; eauto.
  - (* the slot is released *)
    destruct (Vd _ _ H) as (c2 & A & B). rewrite H0 in A. injection A as <-.
    pose proof (count_upd _ (fun c => match c_once c with ODone => false | _ => true end) _ _ (mkConn (c_open c) ODone) _ H0) as CC.
    simpl in CC. rewrite B in CC.
    constructor; cbn [sem done lonce lclosed conns th boom hist]; unfold inFlight, unreleased; auto; try lia.
    + intros u j X. thz NE Z. destruct (Vd _ _ Z) as (c2 & A2 & B2). destruct (Nat.eq_dec j i) as [->|N].
      * exfalso. apply NE. eapply Vu; eauto.
      * exists c2. split; auto. now rewrite nth_upd_neq by auto.
    + intros u v j X Y. repeat thc; eauto.
    + intros j c2 X Y. destruct (nth_upd_inv _ _ _ _ _ _ _ H0 X) as [(-> & ->)|(N & Z)]; [|eauto]. simpl in Y.
      pose proof (Vo _ _ H0 Y). congruence.
    + intros u j X. thz NE Z. destruct (Vn _ _ Z) as (c2 & A2 & B2). destruct (Nat.eq_dec j i) as [->|N].
      * exists (mkConn (c_open c) ODone). split; [eapply nth_upd_eq; eauto|]. simpl. congruence.
      * exists c2. split; auto. now rewrite nth_upd_neq by auto.
    + intros u j X. thz NE Z. destruct (Vl _ _ Z) as (c2 & A2). destruct (Nat.eq_dec j i) as [->|N].
      * eexists. eapply nth_upd_eq; eauto.
      * exists c2. now rewrite nth_upd_neq by auto.
    + intros u X. thz NE Z. eauto.
    + intros u v X Y. repeat thc; eauto.
  - (* the listener's once begins *)
    constructor; cbn [sem done lonce lclosed conns th boom hist]; unfold inFlight, unreleased; auto; try lia.
    + intros u j X. thz NE Z. eauto.
    + intros u v j X Y. repeat thc; eauto.
    + intros u j X. thz NE Z. eauto.
    + intros u j X. thz NE Z. eauto.
    + intros u v X Y. repeat thc; eauto.
      * match goal with X : nth_error l _ = Some LDoing |- _ => pose proof (Ve _ X) end. discriminate.
      * match goal with X : nth_error l _ = Some LDoing |- _ => pose proof (Ve _ X) end. discriminate.
    + intros D. pose proof (Vn2 D). discriminate.
  - (* done is closed *)
    constructor; cbn [sem done lonce lclosed conns th boom hist]; unfold inFlight, unreleased; auto; try lia.
    + intros u j X. thz NE Z. eauto.
    + intros u v j X Y. repeat thc; eauto.
    + intros u j X. thz NE Z. eauto.
    + intros u j X. thz NE Z. eauto.
    + intros u X. thz NE Z. exfalso. apply NE. eapply V1; eauto.
    + intros u v X Y. repeat thc; eauto.
    + rewrite Vb. simpl. destruct d; auto. pose proof (Vn2 eq_refl). pose proof (Ve _ H). congruence.
Qed.

Lemma filter_repeat_idle : forall k, length (filter holding (repeat Idle k)) = 0.
Proof. induction k; simpl; auto. Qed.
Lemma nth_idle : forall k t x, nth_error (repeat Idle k) t = Some x -> x = Idle.
Proof. intros k t x H. apply nth_error_In in H. now apply repeat_spec in H. Qed.
Lemma init_inv : forall n k, inv n (init k).
Proof.
  intros n k. constructor; simpl; auto; try (intros; repeat match goal with H : nth_error (repeat Idle _) _ = Some _ |- _ => apply nth_idle in H end; discriminate).
  - unfold inFlight. rewrite filter_repeat_idle. auto.
  - lia.
  - intros [|i] c H; discriminate.
Qed.
Lemma steps_inv : forall n ac k s, steps n ac (init k) s -> inv n s.
Proof.
  intros n ac k s H. remember (init k) as s0 eqn:E. induction H; subst; [apply init_inv|eapply step_inv; eauto].
Qed.
Lemma open_unreleased : forall cs, (forall i c, nth_error cs i = Some c -> c_open c = true -> c_once c = OFresh) ->
  openConns cs <= unreleased cs.
Proof.
  unfold openConns, unreleased. induction cs as [|c cs IH]; intros H; simpl; auto.
  assert (IH' := IH (fun i x A => H (S i) x A)). pose proof (H 0 c eq_refl) as H0.
  destruct (c_open c); simpl; [rewrite (H0 eq_refl); simpl; lia|destruct (c_once c); simpl; lia].
Qed.

(** At every instant of every schedule, open connections, plus Accept calls that
    hold a slot for a connection to come, are at most [n]. *)
Theorem C16_never_exceeds_limit : forall n ac k s, steps n ac (init k) s ->
  openConns (conns s) + inFlight (th s) <= n.
Proof.
  intros n ac k s H. apply steps_inv in H. pose proof (open_unreleased _ (v_open _ _ H)). pose proof (v_sem _ _ H). pose proof (v_cap _ _ H). lia.
Qed.
Print Assumptions C16_never_exceeds_limit.

(** The used slots are exactly the Accept calls in progress that got one and the
    connections whose first Close has not finished: further Close calls of the same
    connection change nothing, no slot is lost, none is given back twice. *)
Theorem C16_slots_exact : forall n ac k s, steps n ac (init k) s ->
  sem s = inFlight (th s) + unreleased (conns s) /\ sem s <= n.
Proof. intros n ac k s H. apply steps_inv in H. split; apply H. Qed.
Print Assumptions C16_slots_exact.

(** A goroutine about to give back a slot can always do so. *)
Theorem C16_release_never_blocks : forall n ac k s t, steps n ac (init k) s ->
  (nth_error (th s) t = Some ARel \/ exists i, nth_error (th s) t = Some (CDoing i)) ->
  exists s', step n ac s s' /\ sem s = S (sem s') /\ nth_error (th s') t = Some Idle.
Proof.
  intros n ac k s t H T. apply steps_inv in H. destruct s as [sm d o lc cs l b h]. simpl in *. destruct H as [Vs _ Vd _ _ _ _ _ _ _ _]. simpl in *.
  destruct T as [T|(i & T)].
  - pose proof (count_upd _ holding _ _ Idle _ T) as C. simpl in C. unfold inFlight in Vs.
    destruct sm as [|sm]; [lia|]. eexists. split; [apply s_rel; eauto|]. simpl. split; auto. eapply nth_upd_eq; eauto.
  - destruct (Vd _ _ T) as (c & A & B).
    pose proof (count_upd _ (fun c => match c_once c with ODone => false | _ => true end) _ _ (mkConn (c_open c) ODone) _ A) as C.
    simpl in C. rewrite B in C. unfold unreleased in Vs. destruct sm as [|sm]; [lia|].
    eexists. split; [eapply s_cdo; eauto|]. simpl. split; auto. eapply nth_upd_eq; eauto.
Qed.
Print Assumptions C16_release_never_blocks.

(** While fewer than [n] slots are in use a waiting Accept can go on, and after
    Close every waiting Accept can go on. *)
Theorem C16_accept_can_proceed : forall n ac k s t, steps n ac (init k) s -> nth_error (th s) t = Some AWant ->
  inFlight (th s) + unreleased (conns s) < n \/ done s = true ->
  exists s', step n ac s s' /\ (nth_error (th s') t = Some AIn \/ nth_error (th s') t = Some AClosed).
Proof.
  intros n ac k s t H T C. apply steps_inv in H. pose proof (v_sem _ _ H) as V. destruct s as [sm d o lc cs l b h]. simpl in *.
  destruct C as [C| ->].
  - eexists. split; [apply s_sel_sem; eauto; lia|]. left. simpl. eapply nth_upd_eq; eauto.
  - eexists. split; [apply s_sel_done; eauto|]. right. simpl. eapply nth_upd_eq; eauto.
Qed.
Print Assumptions C16_accept_can_proceed.

(** Closing the listener any number of times, from any goroutines, never panics. *)
Theorem C16_close_never_panics : forall n ac k s, steps n ac (init k) s -> boom s = false.
Proof. intros n ac k s H. apply steps_inv in H. apply H. Qed.
Print Assumptions C16_close_never_panics.

(** An Accept call that observed the done signal hands out no connection. *)
Definition since (t : nat) (h : list event) : bool :=
  fold_left (fun b e => match e with EDone u => if Nat.eqb u t then true else b | EAccept u => if Nat.eqb u t then false else b | _ => b end) h false.
Lemma since_snoc : forall t h e, since t (h ++ [e]) =
  match e with EDone u => if Nat.eqb u t then true else since t h | EAccept u => if Nat.eqb u t then false else since t h | _ => since t h end.
Proof. intros. unfold since. rewrite fold_left_app. auto. Qed.
Lemma since_in : forall t b a, since t (a ++ EDone t :: b) = false -> In (EAccept t) b.
Proof.
  intros t b. induction b as [|e b IH] using rev_ind; intros a H.
  - rewrite since_snoc, Nat.eqb_refl in H. discriminate.
  - replace (a ++ EDone t :: b ++ [e]) with ((a ++ EDone t :: b) ++ [e]) in H by (rewrite <- app_assoc; auto).
    rewrite since_snoc in H. apply in_or_app. destruct e as [u|u|u i|u]; eauto.
    + destruct (Nat.eqb_spec u t) as [->|]; [right; now left|eauto].
    + destruct (Nat.eqb u t); [discriminate|eauto].
Qed.
Lemma snoc_cases : forall A (h : list A) e a x b, h ++ [e] = a ++ x :: b -> (exists b', h = a ++ x :: b') \/ (a = h /\ x = e).
Proof.
  intros A h e a x b H. destruct b as [|y b] using rev_ind.
  - apply app_inj_tail in H as (-> & ->). auto.
  - left. exists b. rewrite app_comm_cons, app_assoc in H. apply app_inj_tail in H as (-> & _). auto.
Qed.
Theorem C16_no_connection_after_done : forall n ac k s a b c t i, steps n ac (init k) s ->
  hist s = a ++ EDone t :: b ++ EConn t i :: c -> In (EAccept t) b.
Proof.
  intros n ac k s a b c t i H E. apply since_in with (a := a).
  assert (G : (forall t p, nth_error (th s) t = Some p -> since t (hist s) = true -> p <> AWant /\ p <> AIn) /\
    forall t i a b, hist s = a ++ EConn t i :: b -> since t a = false);
    [|eapply (proj2 G t i _ c); rewrite E, <- app_assoc; reflexivity].
  clear E a b c t i. remember (init k) as s0 eqn:E. induction H as [|s1 s2 s3 H IH S]; subst.
  - split; [discriminate|]. intros t i a b X. destruct a; discriminate.
  - destruct (IH eq_refl) as (I1 & I2). clear IH. destruct S; simpl in *.
    all: split; [intros u p X Y; rewrite ?since_snoc in Y; thc;
        rewrite ?Nat.eqb_refl in *; try discriminate; try (split; discriminate); eauto;
        try (destruct (Nat.eqb_spec t u); [subst; congruence|]); eauto
      |intros u j a0 b0 X; try (apply snoc_cases in X as [(b1 & X)|(-> & X)]; [|try discriminate X]); eauto].
    + destruct (I1 _ _ H0 Y). congruence.
    + injection X as -> ->. destruct (since t h) eqn:Q; auto. destruct (I1 _ _ H0 Q). congruence.
Qed.
Print Assumptions C16_no_connection_after_done.

(** With an underlying listener that returns no connections after it was closed,
    no Accept at all hands one out from then on. *)
Theorem C16_no_connection_after_close : forall n s s', steps n false s s' -> lclosed s = true ->
  length (conns s') = length (conns s) /\ lclosed s' = true.
Proof.
  intros n s s' H L. induction H as [|s1 s2 s3 H IH S]; auto. destruct (IH L) as (A & B). clear IH.
  destruct S; simpl in *; rewrite ?upd_len; auto. subst. destruct H1; discriminate.
Qed.
Print Assumptions C16_no_connection_after_close.

Ltac run k := match k with O => apply steps_refl | S ?j => eapply steps_step; [run j|] end.
(** * Non-vacuity: limit 1; the second Accept waits until the first connection,
    closed twice at once, is released. *)
Example C16_nonvacuous : exists s, steps 1 false (init 3) s /\ conns s = [mkConn false ODone; mkConn true OFresh] /\
  th s = [Idle; Idle; Idle] /\ sem s = 1 /\ hist s = [EAccept 0; EAccept 1; EConn 0 0; EConn 1 1].
Proof.
  eexists. split.
  { run 13.
    - apply (s_accept _ _ _ _ _ _ _ _ _ _ 0). reflexivity.
    - apply (s_accept _ _ _ _ _ _ _ _ _ _ 1). reflexivity.
    - apply (s_sel_sem _ _ _ _ _ _ _ _ _ _ 0); [reflexivity|lia].
    - apply (s_conn _ _ _ _ _ _ _ _ _ _ 0); [reflexivity|auto].
    - apply (s_cclose _ _ _ _ _ _ _ _ _ _ 0 0); [reflexivity|simpl; lia].
    - apply (s_cclose _ _ _ _ _ _ _ _ _ _ 2 0); [reflexivity|simpl; lia].
    - eapply (s_cshut _ _ _ _ _ _ _ _ _ _ 0 0); reflexivity.
    - eapply (s_cshut _ _ _ _ _ _ _ _ _ _ 2 0); reflexivity.
    - eapply (s_conce _ _ _ _ _ _ _ _ _ _ 2 0); reflexivity.
    - eapply (s_cdo _ _ _ _ _ _ _ _ _ _ 2 0); reflexivity.
    - eapply (s_conce_done _ _ _ _ _ _ _ _ _ _ 0 0); reflexivity.
    - apply (s_sel_sem _ _ _ _ _ _ _ _ _ _ 1); [reflexivity|lia].
    - apply (s_conn _ _ _ _ _ _ _ _ _ _ 1); [reflexivity|auto].
    }
  repeat split.
Qed.

(** * C39: a rejected client gives its slot back. *)
(** True when the handshake fails ... *)
Theorem C39_failed_handshake_closes_partial : forall skip ok, handleTLSConnection false skip ok = Closed.
Proof. reflexivity. Qed.
Print Assumptions C39_failed_handshake_closes_partial.
(** ... but a client whose key is not accepted is dropped without Close; and once
    [n] connections were dropped that way, no further connection is handed out
    unless some connection gets closed after all. *)
Fixpoint acceptMany (m : nat) : st :=
  match m with
  | O => init 1
  | S m' => let s := acceptMany m' in
            mkSt (S (sem s)) false OFresh false (conns s ++ [mkConn true OFresh]) [Idle] false
                 (hist s ++ [EAccept 0; EConn 0 (length (conns s))])
  end.
Lemma acceptMany_shape : forall m, let s := acceptMany m in
  s = mkSt m false OFresh false (repeat (mkConn true OFresh) m) [Idle] false (hist s).
Proof.
  induction m as [|m IH]; [reflexivity|]. cbn -[repeat]. rewrite IH. cbn -[repeat]. f_equal.
  clear. induction m; simpl; auto. now rewrite IHm.
Qed.
Theorem C39_rejected_key_leaks_slot_refuted : handleTLSConnection true false false = Dropped /\
  forall n ac, exists s, steps n ac (init 1) s /\ conns s = repeat (mkConn true OFresh) n /\
    forall s', steps n ac s s' -> n < length (conns s') -> exists i c, nth_error (conns s') i = Some c /\ c_once c = ODone.
Proof.
  split; [reflexivity|]. intros n ac.
  assert (R : forall m, m <= n -> steps n ac (init 1) (acceptMany m)).
  { induction m as [|m IH]; intros L; [constructor|]. specialize (IH ltac:(lia)). cbn. pose proof (acceptMany_shape m) as E. cbv zeta in E.
    rewrite E in IH. rewrite E. simpl.
    eapply steps_step; [eapply steps_step; [eapply steps_step; [exact IH|]|]|].
    - apply (s_accept _ _ _ _ _ _ _ _ _ _ 0). reflexivity.
    - apply (s_sel_sem _ _ _ _ _ _ _ _ _ _ 0); [reflexivity|lia].
    - replace (hist (acceptMany m) ++ [EAccept 0; EConn 0 (length (repeat (mkConn true OFresh) m))])
        with ((hist (acceptMany m) ++ [EAccept 0]) ++ [EConn 0 (length (repeat (mkConn true OFresh) m))]) by (rewrite <- app_assoc; auto).
      change [Idle] with (upd 0 Idle (upd 0 AIn (upd 0 AWant [Idle]))) at 2.
      apply (s_conn _ _ _ _ _ _ _ _ _ _ 0); [reflexivity|auto]. }
  exists (acceptMany n). split; [auto|]. split; [rewrite (acceptMany_shape n); auto|].
  intros s' H L.
  assert (R' : steps n ac (init 1) s').
  { assert (T : forall a b c, steps n ac b c -> steps n ac a b -> steps n ac a c) by (induction 1; eauto using steps_step). eauto. }
  apply steps_inv in R'.
  pose proof (v_sem _ _ R') as V. pose proof (v_cap _ _ R') as V2. unfold unreleased in V.
  assert (G : forall cs, length (filter (fun c => match c_once c with ODone => false | _ => true end) cs) < length cs ->
    exists i c, nth_error cs i = Some c /\ c_once c = ODone).
  { induction cs as [|c cs IH]; simpl; [lia|]. destruct (c_once c) eqn:E; simpl; intros X.
    - destruct IH as (i & c2 & A & B); [lia|]. exists (S i), c2. auto.
    - destruct IH as (i & c2 & A & B); [lia|]. exists (S i), c2. auto.
    - exists 0, c. auto. }
  apply G. lia.
Qed.
Print Assumptions C39_rejected_key_leaks_slot_refuted.
