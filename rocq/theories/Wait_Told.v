(** What a leader has put in its log and not committed is in the walk of its waiting requests, if no request reaches it twice. *)
From Coq Require Import List ZArith Bool Arith Lia.
Import ListNotations.
From Verif Require Import Wait_Model Wait_Spec Wait_Proofs Wait_Order Wait_Main.
Local Open Scope Z_scope.

Definition at_ (n : node) (j : nat) (q : nat) : Prop := nth_error (log n) j = Some q.
(** Every entry's ticket has its index. *)
Definition indexed (n : node) : Prop := forall j q, at_ n j q -> tIdx (hp n q) = Z.of_nat j + 1.

(** The leader's map: b is where its first entry is. *)
Definition okWal (n : node) (w : imap) (b : nat) : Prop :=
  (forall k q, In (k, q) (await w) -> 0 < tIdx (hp n q) -> In q (log n)) /\
  (forall k q, get k (byId w) = Some q -> forall r, (r < next n)%nat -> tId (hp n r) = k -> r = q) /\
  (forall j q, (b <= j)%nat -> (applied n <= j)%nat -> at_ n j q -> In (Z.of_nat j + 1, q) (ordered w)).
(** The follower's map: no index, not in the log, not finished. *)
Definition okWaf (n : node) (w : imap) : Prop :=
  ordered w = [] /\ (forall k q, In (k, q) (byId w) \/ In (k, q) (await w) -> get k (byId w) <> None) /\
  (forall k q, In (k, q) (byId w) \/ In (k, q) (await w) -> k = tId (hp n q) /\ (q < next n)%nat /\ tIdx (hp n q) = 0 /\ ~ In q (batch n) /\ ~ In q (fin n)).

Definition K (n : node) : Prop :=
  indexed n /\
  (NoDup (batch n) /\ forall q, In q (batch n) -> tIdx (hp n q) = 0) /\
  (forall q, In q (fin n) -> (q < next n)%nat) /\
  okWaf n (waf n) /\
  (leader n = true -> exists b, at_ n b (noop n) /\ okWal n (wal n) b).

Lemma assign_same : forall p h r, assign p (tIdx (h p)) h r = h r.
Proof. intros p h r. unfold assign, store. destruct (Nat.eqb_spec r p) as [-> | N]; [destruct (h p); reflexivity | reflexivity]. Qed.

Lemma byId_iset : forall h j q w, byId (iset h j q w) = put j q (byId w).
Proof. intros h j q w. unfold iset. destruct (0 <? tIdx (h q)); reflexivity. Qed.

Lemma at_app : forall (l : list nat) p j q, nth_error (l ++ [p]) j = Some q -> nth_error l j = Some q \/ (j = length l /\ q = p).
Proof.
  intros l p j q H. destruct (Nat.lt_ge_cases j (length l)) as [L | L].
  - left. rewrite nth_error_app1 in H by exact L. exact H.
  - right. rewrite nth_error_app2 in H by exact L. destruct (j - length l)%nat as [|d] eqn:E; cbn in H.
    + split; [lia | congruence].
    + destruct d; discriminate.
Qed.
Lemma at_app_old : forall (l : list nat) (p : nat) j q, nth_error l j = Some q -> nth_error (l ++ [p]) j = Some q.
Proof. intros l p j q H. rewrite nth_error_app1; [exact H|]. apply nth_error_Some. congruence. Qed.
Lemma at_app_new : forall (l : list nat) (p : nat), nth_error (l ++ [p]) (length l) = Some p.
Proof. intros l p. rewrite nth_error_app2 by apply le_n. rewrite Nat.sub_diag. reflexivity. Qed.

(** A walk's repair keeps what is in the log. *)
Lemma okWal_repair : forall n w b, indexed n -> okWal n w b -> okWal n (repair (hp n) w) b.
Proof.
  intros n w b L. unfold repair.
  assert (Q : forall l w, (forall k q, In (k, q) l -> 0 < tIdx (hp n q) -> In q (log n)) -> okWal n w b -> okWal n (fold_left (repairOne (hp n)) l w) b).
  { clear w. induction l as [|[k0 q0] l IH]; cbn [fold_left]; intros w A B; [exact B|].
    apply IH; [intros k q X; apply (A k q); right; exact X|]. destruct B as (B1 & B2 & B3).
    unfold repairOne. cbn [fst snd]. destruct (get k0 (byId w)).
    - destruct (Z.ltb_spec 0 (tIdx (hp n q0))) as [I | I]; [|exact (conj B1 (conj B2 B3))].
      split; [|split]; cbn [ordered byId await].
      + intros k q X. apply remove_In in X. eauto.
      + exact B2.
      + intros j q X Y Z. specialize (B3 j q X Y Z). destruct (Z.eq_dec (Z.of_nat j + 1) (tIdx (hp n q0))) as [E | E]; [|apply put_keeps; assumption].
        assert (T : q = q0).
        { destruct (In_nth_error (log n) q0) as [i J]; [apply (A k0 q0); [left; reflexivity | exact I]|].
          pose proof (L i q0 J) as M. assert (i = j) by lia. subst i. unfold at_ in Z. congruence. }
        subst q0. rewrite E. apply put_has.
    - split; [|split]; cbn [ordered byId await]; [|exact B2 | exact B3]. intros k q X. apply remove_In in X. eauto. }
  intros B. apply Q; [|exact B]. destruct B as (B1 & _). exact B1.
Qed.

Lemma okWaf_repair : forall n w, okWaf n w -> ordered (repair (hp n) w) = [].
Proof.
  intros n w (A & _ & B). unfold repair.
  assert (Q : forall l w, ordered w = [] -> (forall k q, In (k, q) l -> tIdx (hp n q) = 0) -> ordered (fold_left (repairOne (hp n)) l w) = []).
  { clear. induction l as [|[k q] l IH]; cbn [fold_left]; intros w A B; [exact A|]. apply IH; [|intros k' q' X; apply (B k' q'); right; exact X].
    unfold repairOne. cbn [fst snd]. rewrite (B k q (or_introl eq_refl)). cbn. destruct (get k (byId w)); exact A. }
  apply Q; [exact A|]. intros k q X. apply (B k q (or_intror X)).
Qed.

Lemma K_start : K start.
Proof.
  split; [|split; [split|split; [|split]]].
  - intros j q E. destruct j; discriminate.
  - constructor.
  - intros q [].
  - intros q [].
  - split; [reflexivity|]. split; intros k q [[] | []].
  - discriminate.
Qed.

Lemma alloc_K : forall n id i, G n -> K n -> 0 <= i -> (leader n = true -> forall q, (q < next n)%nat -> tId (hp n q) <> id) -> K (alloc id i n).
Proof.
  intros n id i (GA & GB & GC & GD) (A & (B1 & B2) & C & (D1 & D3 & D2) & E) I U.
  assert (S : forall q, (q < next n)%nat -> hp (alloc id i n) q = hp n q).
  { intros q L. cbn. unfold store. destruct (Nat.eqb_spec q (next n)); [lia | reflexivity]. }
  split; [|split; [split|split; [|split]]].
  - intros j q J. rewrite S; [apply A, J|]. apply GC. eapply nth_error_In, J.
  - exact B1.
  - intros q Q. rewrite S by (apply GD, Q). apply B2, Q.
  - intros q Q. specialize (C q Q). cbn. lia.
  - split; [exact D1|]. split; [exact D3|]. intros k q X. destruct (D2 k q X) as (X1 & X2 & X3 & X4). rewrite S by exact X2. repeat split; auto; try apply X4. cbn. lia.
  - intros L. destruct (E L) as (b & J & (E1 & E2 & E3)). exists b. split; [exact J|]. split; [|split].
    + intros k q X Y. destruct GA as (_ & _ & GA). rewrite S in Y by (apply (GA _ _ X)). apply (E1 k q X Y).
    + intros k q X r R T. destruct (Nat.eq_dec r (next n)) as [-> | N].
      * cbn in T. unfold store in T. rewrite Nat.eqb_refl in T. cbn in T. subst k. exfalso.
        apply get_In in X. destruct GA as (_ & GA & _). destruct (GA _ _ X) as [Y Z]. apply (U L q Y Z).
      * cbn in R. assert (R' : (r < next n)%nat) by lia. rewrite S in T by exact R'. apply (E2 k q X r R' T).
    + exact E3.
Qed.

(** A ticket without an index is put in the log of the leader. *)
Lemma logOne_K : forall n p b, G n -> indexed n -> okWaf n (waf n) -> okWal n (wal n) b -> (b <= length (log n))%nat -> (p < next n)%nat -> tIdx (hp n p) = 0 ->
  (forall k, ~ In (k, p) (byId (waf n)) /\ ~ In (k, p) (await (waf n))) ->
  (forall r, (r < next n)%nat -> tId (hp n r) = tId (hp n p) -> r = p) ->
  indexed (logOne n p) /\ okWaf (logOne n p) (waf n) /\ okWal (logOne n p) (wal (logOne n p)) b.
Proof.
  intros n p b HG A (D1 & D3 & D2) (E1 & E2 & E3) LB L Z V U.
  assert (NL : ~ In p (log n)). { intros X. destruct HG as (_ & _ & C & _). apply C in X. lia. }
  set (h := assign p (Z.of_nat (length (log n)) + 1) (hp n)).
  assert (HP : tIdx (h p) = Z.of_nat (length (log n)) + 1) by (unfold h, assign, store; rewrite Nat.eqb_refl; reflexivity).
  assert (HO : forall q, q <> p -> h q = hp n q) by (intros q N; unfold h; apply assign_P; congruence).
  assert (HI : forall q, tId (h q) = tId (hp n q)) by (intros q; unfold h; apply assign_id).
  split; [|split].
  - intros j q J. unfold at_ in J. cbn [logOne walSet withWal log] in J. cbn [logOne walSet withWal hp]. fold h.
    apply at_app in J as [J | [-> ->]]; [|exact HP].
    rewrite HO; [apply A, J|]. intros ->. apply NL. eapply nth_error_In, J.
  - split; [exact D1|]. split; [exact D3|]. intros k q X. destruct (D2 k q X) as (X1 & X2 & X3 & X4). cbn [logOne walSet withWal hp next batch fin]. fold h.
    assert (q <> p). { intros ->. destruct (V k) as [V1 V2]. destruct X; contradiction. }
    rewrite HO by assumption. auto.
  - cbn [logOne walSet withWal wal hp]. fold h. unfold iset. rewrite HP. destruct (Z.ltb_spec 0 (Z.of_nat (length (log n)) + 1)); [|lia].
    split; [|split]; cbn [ordered byId await logOne walSet withWal hp log next]; fold h.
    + intros k q X Y. apply in_app_iff. destruct (Nat.eq_dec q p) as [-> | N]; [right; left; reflexivity|]. rewrite HO in Y by exact N. left. apply (E1 k q X Y).
    + intros k q X r R T. rewrite HI in T. rewrite get_put in X. destruct (Z.eqb_spec (tId (h p)) k) as [F | F].
      * injection X as <-. rewrite HI in F. apply U; [exact R | congruence].
      * apply (E2 k q X r R T).
    + intros j q X Y J. unfold at_ in J. cbn [logOne walSet withWal log] in J. apply at_app in J as [J | [-> ->]]; [|apply put_has].
      apply put_keeps; [apply E3; assumption|]. assert (j < length (log n))%nat by (apply nth_error_Some; congruence). lia.
Qed.

Definition fresh (n : node) (e : event) : Prop :=
  match e with EReq id | ELead id => forall q, (q < next n)%nat -> tId (hp n q) <> id | _ => True end.

(** Tickets of the batch have IDs of their own. *)
Definition B (n : node) : Prop := forall p, In p (batch n) -> forall r, (r < next n)%nat -> tId (hp n r) = tId (hp n p) -> r = p.

Lemma B_alloc : forall n id i, G n -> B n -> (batch n = [] \/ forall q, (q < next n)%nat -> tId (hp n q) <> id) -> B (alloc id i n).
Proof.
  intros n id i (_ & _ & _ & D) H U p Q r R T. cbn in Q, R. destruct U as [U | U]; [rewrite U in Q; destruct Q|].
  specialize (D p Q). cbn in T. unfold store in T. destruct (Nat.eqb_spec p (next n)); [lia|].
  destruct (Nat.eqb_spec r (next n)) as [-> | N]; [exfalso; cbn in T; apply (U p D); congruence|]. apply H; [exact Q | lia | exact T].
Qed.

(** The loop of a batch. *)
Lemma flush_K : forall n b, G n -> indexed n -> okWaf n (waf n) -> at_ n b (noop n) -> okWal n (wal n) b ->
  forall l, NoDup l -> (forall q, In q l -> (q < next n)%nat /\ tIdx (hp n q) = 0) ->
  (forall p, In p l -> forall k, ~ In (k, p) (byId (waf n)) /\ ~ In (k, p) (await (waf n))) ->
  (forall p, In p l -> forall r, (r < next n)%nat -> tId (hp n r) = tId (hp n p) -> r = p) ->
  let m := fold_left logOne l n in indexed m /\ okWaf m (waf m) /\ at_ m b (noop m) /\ okWal m (wal m) b /\ leader m = leader n /\ batch m = batch n /\ fin m = fin n /\ next m = next n.
Proof.
  intros n b HG A D J E l. revert n HG A D J E. induction l as [|p l IH]; intros n HG A D J E ND Z V U; cbv zeta; cbn [fold_left]; [exact (conj A (conj D (conj J (conj E (conj eq_refl (conj eq_refl (conj eq_refl eq_refl)))))))|].
  inversion ND as [|? ? NI ND']; subst. destruct (Z p (or_introl eq_refl)) as [L I].
  assert (LB : (b <= length (log n))%nat) by (apply Nat.lt_le_incl, nth_error_Some; unfold at_ in J; congruence).
  destruct (logOne_K n p b HG A D E LB L I (V p (or_introl eq_refl)) (U p (or_introl eq_refl))) as (A' & D' & E').
  assert (O : forall q, In q l -> hp (logOne n p) q = hp n q). { intros q Q. cbn. apply assign_P. intros ->. contradiction. }
  apply (IH (logOne n p)).
  - apply logOne_G; assumption.
  - exact A'.
  - exact D'.
  - apply at_app_old, J.
  - exact E'.
  - exact ND'.
  - intros q Q. rewrite O by exact Q. apply Z. right. exact Q.
  - intros q Q. apply V. right. exact Q.
  - intros q Q r R T. cbn [logOne walSet withWal hp next] in R, T. rewrite !assign_id in T. apply U; [right; exact Q | exact R | exact T].
Qed.

(** Finishing on the leader a committed entry's ticket. *)
Lemma finish_wal : forall n p b, indexed n -> leader n = true -> okWal n (wal n) b -> (p < next n)%nat -> (exists j, at_ n j p /\ (j < applied n)%nat) ->
  (forall r, hp (finish p n) r = hp n r) /\ okWal n (wal (finish p n)) b.
Proof.
  intros n p b A L (E1 & E2 & E3) LP (j & J & AP). unfold finish. destruct (existsb (Nat.eqb p) (fin n)); [split; [reflexivity | exact (conj E1 (conj E2 E3))]|].
  cbv zeta. rewrite L.
  assert (Q : match get (tId (hp n p)) (byId (wal n)) with Some q => q | None => p end = p).
  { destruct (get (tId (hp n p)) (byId (wal n))) as [q|] eqn:X; [|reflexivity]. symmetry. apply (E2 _ _ X p LP eq_refl). }
  rewrite Q. cbn [hp wal]. split; [apply assign_same|].
  unfold idel. rewrite !assign_same. destruct (get (tId (hp n p)) (byId (wal n))); [|exact (conj E1 (conj E2 E3))].
  split; [|split]; cbn [ordered byId await].
  - intros k q X. apply remove_In in X. apply (E1 k q X).
  - intros k q X. rewrite get_remove in X. destruct (tId (hp n p) =? k); [discriminate|]. apply (E2 k q X).
  - intros i q X Y Z. apply remove_keeps; [apply E3; assumption|]. rewrite (A j p J). lia.
Qed.

Lemma idel_wal : forall n p b, indexed n -> okWal n (wal n) b -> (exists j, at_ n j p /\ (j < applied n)%nat) -> okWal n (idel (hp n) p (wal n)) b.
Proof.
  intros n p b A (E1 & E2 & E3) (j & J & AP). unfold idel. destruct (get (tId (hp n p)) (byId (wal n))); [|exact (conj E1 (conj E2 E3))].
  split; [|split]; cbn [ordered byId await].
  - intros k q X. apply remove_In in X. apply (E1 k q X).
  - intros k q X. rewrite get_remove in X. destruct (tId (hp n p) =? k); [discriminate|]. apply (E2 k q X).
  - intros i q X Y Z. apply remove_keeps; [apply E3; assumption|]. rewrite (A j p J). lia.
Qed.

(** okWal and the rest look only at some fields. *)
Lemma okWal_same : forall n m w b, (forall r, hp m r = hp n r) -> log m = log n -> next m = next n -> (applied n <= applied m)%nat -> okWal n w b -> okWal m w b.
Proof.
  intros n m w b H L X P (E1 & E2 & E3). split; [|split].
  - intros k q Q R. rewrite H in R. rewrite L. apply (E1 k q Q R).
  - intros k q Q r R T. rewrite X in R. rewrite H in T. apply (E2 k q Q r R T).
  - intros j q Q R T. unfold at_ in T. rewrite L in T. apply E3; [exact Q | lia | exact T].
Qed.

Definition KK (n : node) : Prop := K n /\ B n /\ (leader n = false -> batch n = []).

(** Finishing on a follower: one that waits under the ID, or an entry of the log. *)
Lemma finish_waf : forall n p, G n -> leader n = false -> indexed n -> batch n = [] -> (p < next n)%nat ->
  ordered (waf n) = [] -> (forall k q, In (k, q) (byId (waf n)) \/ In (k, q) (await (waf n)) -> get k (byId (waf n)) <> None) ->
  (forall q, In q (fin n) -> (q < next n)%nat) ->
  (forall k q, In (k, q) (byId (waf n)) \/ In (k, q) (await (waf n)) -> k = tId (hp n q) /\ (q < next n)%nat /\ ~ In q (fin n) /\ (q = p \/ tIdx (hp n q) = 0)) ->
  (In p (log n) \/ exists k, In (k, p) (byId (waf n))) ->
  (In p (log n) -> forall k, ~ In (k, p) (byId (waf n)) /\ ~ In (k, p) (await (waf n))) ->
  (forall q, In q (log n) -> forall k, ~ In (k, q) (byId (waf n))) ->
  KK (finish p n).
Proof.
  intros n p HG L A BE LP O HK FN W C1 C2 C3. unfold finish. destruct (existsb (Nat.eqb p) (fin n)) eqn:FE.
  - apply existsb_exists in FE as (p' & FI & FQ). apply Nat.eqb_eq in FQ. subst p'.
    assert (PL : In p (log n)). { destruct C1 as [C1 | (k & C1)]; [exact C1|]. destruct (W k p (or_introl C1)) as (_ & _ & X & _). contradiction. }
    split; [|split; [intros q Q; rewrite BE in Q; destruct Q | intros _; exact BE]].
    split; [exact A|]. rewrite BE. split; [split; [constructor | intros q []]|]. split; [exact FN|]. split; [|rewrite L; discriminate].
    split; [exact O|]. split; [exact HK|]. intros k q X. destruct (W k q X) as (X1 & X2 & X3 & X4). rewrite BE. repeat split; auto.
    destruct X4 as [-> | X4]; [|exact X4]. exfalso. destruct (C2 PL k) as [V1 V2]. destruct X; contradiction.
  - cbv zeta. rewrite L. cbn [negb].
    set (q0 := match get (tId (hp n p)) (byId (waf n)) with Some q => q | None => p end).
    set (h := assign q0 (tIdx (hp n p)) (hp n)).
    assert (HI : forall r, tId (h r) = tId (hp n r)) by (intros r; unfold h; apply assign_id).
    assert (HL : forall r, In r (log n) -> h r = hp n r).
    { intros r R. unfold h, q0. destruct (get (tId (hp n p)) (byId (waf n))) as [q|] eqn:E.
      - apply assign_P. intros ->. apply (C3 r R (tId (hp n p))). apply get_In, E.
      - apply assign_same. }
    split; [|split; [intros q Q; cbn in Q; rewrite BE in Q; destruct Q | intros _; exact BE]].
    split; [|split; [|split; [|split]]].
    + intros j r J. cbn [hp]. rewrite HL by (eapply nth_error_In, J). apply A, J.
    + cbn [batch]. rewrite BE. split; [constructor | intros q []].
    + cbn [fin next]. intros q [<- | Q]; [exact LP | apply FN, Q].
    + cbn [waf]. unfold idel. rewrite HI.
      assert (G0 : forall k q, In (k, q) (byId (waf n)) \/ In (k, q) (await (waf n)) -> k <> tId (hp n p) ->
        k = tId (h q) /\ (q < next n)%nat /\ tIdx (h q) = 0 /\ ~ In q (batch n) /\ ~ In q (p :: fin n)).
      { intros k q X N. destruct (W k q X) as (X1 & X2 & X3 & X4).
        assert (QP : q <> p) by (intros ->; congruence). destruct X4 as [X4 | X4]; [contradiction|].
        assert (Q0 : q0 <> q).
        { unfold q0. destruct (get (tId (hp n p)) (byId (waf n))) as [q'|] eqn:E; [|congruence].
          apply get_In in E. destruct (W _ _ (or_introl E)) as (Y & _). intros ->. congruence. }
        rewrite HI. unfold h. rewrite assign_P by exact Q0. rewrite BE. repeat split; auto. intros [Y | Y]; [congruence | contradiction]. }
      destruct (get (tId (hp n p)) (byId (waf n))) as [q'|] eqn:E.
      * split; [cbn [ordered]; rewrite O; reflexivity|]. split; [cbn [byId await]; intros k q X; rewrite get_remove|].
        { assert (N : k <> tId (hp n p)) by (destruct X as [X | X]; apply (remove_not _ _ _ _ X)).
          destruct (Z.eqb_spec (tId (hp n p)) k); [congruence|]. apply (HK k q). destruct X as [X | X]; apply remove_In in X; auto. }
        cbn [byId await hp next batch fin].
        intros k q X. apply G0; [destruct X as [X | X]; apply remove_In in X; auto|].
        destruct X as [X | X]; apply (remove_not _ _ _ _ X).
      * split; [exact O|]. split; [exact HK|]. cbn [hp next batch fin]. intros k q X. apply G0; [exact X|]. intros ->. apply (HK _ _ X). exact E.
    + cbn [leader]. discriminate.
Qed.

Lemma In_get : forall k q l, In (k, q) l -> get k l <> None.
Proof.
  induction l as [|x l IH]; intros X; [destruct X|]. cbn [get]. destruct (Z.eqb_spec (fst x) k) as [E | E]; [discriminate|].
  destruct X as [-> | X]; [cbn in E; congruence | apply IH, X].
Qed.

Lemma waf_not_log : forall n k q, G n -> okWaf n (waf n) -> In q (log n) -> ~ In (k, q) (byId (waf n)) /\ ~ In (k, q) (await (waf n)).
Proof.
  intros n k q (_ & _ & C & _) (_ & _ & D) Q. destruct (C q Q) as [_ L].
  split; intros X; [destruct (D k q (or_introl X)) as (_ & _ & Z & _) | destruct (D k q (or_intror X)) as (_ & _ & Z & _)]; lia.
Qed.

Lemma commit_KK : forall n, G n -> KK n -> KK (commit n).
Proof.
  intros n HG HK. unfold commit. destruct (nth_error (log n) (applied n)) as [p|] eqn:AT; [|exact HK].
  destruct (nth_log _ _ HG AT) as (IL & L & I). pose proof HG as (GA & GB & GC & GD).
  destruct HK as ((A & (B1 & B2) & C & D & E) & BB & LB).
  set (n1 := Node _ _ _ _ _ _ _ (S (applied n)) _ _ _ _ _).
  assert (G1 : G n1) by exact (conj GA (conj GB (conj GC GD))).
  destruct (leader n) eqn:EL.
  - destruct (E eq_refl) as (b & J & W).
    assert (W1 : okWal n1 (wal n1) b) by (apply (okWal_same n); try reflexivity; [cbn; lia | exact W]).
    assert (PJ : exists j, at_ n1 j p /\ (j < applied n1)%nat) by (exists (applied n); split; [exact AT | cbn; lia]).
    assert (DONE : forall m w b', (forall r, hp m r = hp n r) -> next m = next n -> leader m = true -> noop m = noop n -> batch m = batch n -> log m = log n ->
      wal m = w -> waf m = waf n -> (fin m = fin n \/ fin m = p :: fin n) -> at_ m b' (noop m) -> okWal m w b' -> KK m).
    { intros m w b' H1 H2 H3 H4 H5 H6 H7 H8 H9 H10 H11. split; [split; [|split; [|split; [|split]]]|split].
      - intros j q Q. rewrite H1. apply A. unfold at_ in *. rewrite <- H6. exact Q.
      - rewrite H5. split; [exact B1|]. intros q Q. rewrite H1. apply B2, Q.
      - rewrite H2. intros q Q. destruct H9 as [H9 | H9]; rewrite H9 in Q; [apply C, Q|]. destruct Q as [<- | Q]; [exact L | apply C, Q].
      - rewrite H8. pose proof D as (D1 & D3 & D2). split; [exact D1|]. split; [exact D3|]. intros k q Q. rewrite H1, H2, H5. destruct (D2 k q Q) as (X1 & X2 & X3 & X4 & X5).
        repeat split; auto. destruct H9 as [H9 | H9]; rewrite H9; [exact X5|]. intros [<- | X]; [|contradiction].
        destruct (waf_not_log n k p HG D IL) as [V1 V2]. destruct Q; contradiction.
      - intros _. exists b'. rewrite H7. split; [exact H10 | exact H11].
      - intros q Q r R T. rewrite !H1 in T. rewrite H5 in Q. rewrite H2 in R. apply BB; assumption.
      - rewrite H3. discriminate. }
    destruct (true && Nat.eqb p (noop n) && negb (noopDone n)).
    + set (n2 := withWal (idel (hp n1) p (wal n1)) n1). set (n3 := Node _ _ _ _ true _ _ _ _ _ _ _ _).
      assert (G3 : G n3). { split; [|split; [|split]]; cbn; auto. apply wf_idel. exact GA. }
      assert (W3 : okWal n3 (wal n3) b). { apply (okWal_same n1); try reflexivity. apply idel_wal; [exact A | exact W1 | exact PJ]. }
      destruct (finish_wal n3 p b A eq_refl W3 L PJ) as [HS HW].
      rewrite resubmit_none by (apply finish_G; [exact G3 | exact L | exact I]).
      assert (FX : next (finish p n3) = next n /\ noop (finish p n3) = noop n /\ batch (finish p n3) = batch n /\ log (finish p n3) = log n /\
        waf (finish p n3) = waf n /\ leader (finish p n3) = true /\ applied (finish p n3) = S (applied n) /\ (fin (finish p n3) = fin n \/ fin (finish p n3) = p :: fin n)).
      { unfold finish. destruct (existsb (Nat.eqb p) (fin n3)); cbn; auto 10. }
      destruct FX as (F1 & F2 & F3 & F4 & F5 & F6 & F7 & F8).
      assert (WF : okWal (finish p n3) (wal (finish p n3)) b).
      { apply (okWal_same n3); [exact HS | exact F4 | exact F1 | rewrite F7; apply le_n | exact HW]. }
      assert (IF : indexed (finish p n3)). { intros j q Q. rewrite HS. apply A. unfold at_ in Q. rewrite F4 in Q. exact Q. }
      apply (DONE _ (repair (hp (finish p n3)) (wal (finish p n3))) b); cbn [withWal hp next leader noop batch log wal waf fin]; try assumption; try reflexivity.
      * unfold at_. cbn [withWal log noop]. rewrite F4. try rewrite F2. exact J.
      * apply (okWal_same (finish p n3)); try reflexivity. apply okWal_repair; [exact IF | exact WF].
    + destruct (finish_wal n1 p b A eq_refl W1 L PJ) as [HS HW].
      assert (FX : next (finish p n1) = next n /\ noop (finish p n1) = noop n /\ batch (finish p n1) = batch n /\ log (finish p n1) = log n /\
        waf (finish p n1) = waf n /\ leader (finish p n1) = true /\ applied (finish p n1) = S (applied n) /\ (fin (finish p n1) = fin n \/ fin (finish p n1) = p :: fin n)).
      { unfold finish. destruct (existsb (Nat.eqb p) (fin n1)); cbn; auto 10. }
      destruct FX as (F1 & F2 & F3 & F4 & F5 & F6 & F7 & F8).
      apply (DONE _ (wal (finish p n1)) b); try assumption; try reflexivity.
      * unfold at_. rewrite F4, F2. exact J.
      * apply (okWal_same n1); [exact HS | exact F4 | exact F1 | rewrite F7; apply le_n | exact HW].
  - cbn [andb]. pose proof D as (D1 & D3 & D2).
    apply finish_waf; cbn [leader batch next waf fin log hp]; auto.
    + intros k q X. destruct (D2 k q X) as (X1 & X2 & X3 & X4 & X5). auto 10.
    + intros X k. apply (waf_not_log n k p HG D X).
    + intros q Q k. apply (waf_not_log n k q HG D Q).
Qed.

Lemma lead_KK : forall n id, G n -> F n -> KK n -> (forall q, (q < next n)%nat -> tId (hp n q) <> id) -> KK (lead id n).
Proof.
  intros n id HG HF HK U. unfold lead. destruct (leader n) eqn:EL; [exact HK|].
  destruct HK as (HK & BB & LB). pose proof (LB EL) as BE. pose proof (HF EL) as WE.
  assert (K1 : K (alloc id 0 n)) by (apply alloc_K; [exact HG | exact HK | lia | congruence]).
  pose proof (alloc_G _ id 0 HG (Z.le_refl 0)) as G1.
  destruct K1 as (A & _ & C & D & _).
  set (n2 := Node _ _ true _ false [] _ _ _ _ _ _ _).
  assert (G2 : G n2). { destruct G1 as (X1 & X2 & X3 & X4). split; [|split; [|split]]; auto. intros q []. }
  assert (L : (next n < next n2)%nat) by (cbn; lia).
  assert (HN : hp n2 (next n) = Tk id 0) by (cbn; unfold store; rewrite Nat.eqb_refl; reflexivity).
  assert (UQ : forall r, (r < next n2)%nat -> tId (hp n2 r) = id -> r = next n).
  { intros r R T. destruct (Nat.eq_dec r (next n)) as [E | N]; [exact E|]. exfalso. apply (U r); [cbn in R; lia|]. cbn in T. unfold store in T.
    destruct (Nat.eqb_spec r (next n)); [contradiction | exact T]. }
  set (n2' := walSet (next n) n2). assert (G2' : G n2') by (apply G_walSet; [exact G2 | exact L]).
  assert (D2 : okWaf n2 (waf n2)). { destruct D as (X1 & X2 & X3). split; [exact X1|]. split; [exact X2|]. intros k q Q. destruct (X3 k q Q) as (Y1 & Y2 & Y3 & _ & Y5). repeat split; auto. }
  assert (W2 : okWal n2' (wal n2') (length (log n))).
  { unfold n2', walSet, withWal. cbn [wal]. unfold iset. rewrite HN. cbn [tIdx tId]. change (wal n2) with (wal n). rewrite WE. cbn.
    split; [|split]; cbn [ordered byId await hp next log].
    - intros k q [[= <- <-] | []] Y. change (0 < tIdx (hp n2 (next n))) in Y. rewrite HN in Y. cbn in Y. lia.
    - intros k q X r R T. cbn [get fst snd] in X. destruct (Z.eqb_spec id k) as [E | E]; [|discriminate]. injection X as <-. apply UQ; [exact R|]. rewrite E. exact T.
    - intros j q X _ J. exfalso. unfold at_ in J. cbn [log] in J. assert (j < length (log n))%nat by (apply nth_error_Some; cbn in J; congruence). lia. }
  assert (NW : forall k, ~ In (k, next n) (byId (waf n2')) /\ ~ In (k, next n) (await (waf n2'))).
  { intros k. destruct HK as (_ & _ & _ & (_ & _ & X3) & _). split; intros X; [destruct (X3 k (next n) (or_introl X)) as (_ & Y & _) | destruct (X3 k (next n) (or_intror X)) as (_ & Y & _)]; lia. }
  destruct (logOne_K n2' (next n) (length (log n)) G2' A D2 W2 (le_n _) L) as (A3 & D3 & W3).
  { change (tIdx (hp n2 (next n)) = 0). rewrite HN. reflexivity. }
  { exact NW. }
  { intros r R T. apply UQ; [exact R|]. change (tId (hp n2 r) = tId (hp n2 (next n))) in T. rewrite HN in T. exact T. }
  set (n3 := logOne n2' (next n)) in *.
  assert (WK : snd (iall (hp n3) (waf n3)) = []). { unfold iall. cbn [snd]. rewrite (okWaf_repair n3 (waf n3) D3). reflexivity. }
  rewrite WK. cbn [fold_left]. split; [split; [|split; [|split; [|split]]]|split].
  - exact A3.
  - cbn. split; [constructor | intros q []].
  - exact C.
  - split; [reflexivity|]. split; intros k q [[] | []].
  - intros _. exists (length (log n)). split; [|exact W3]. apply at_app_new.
  - intros p [].
  - discriminate.
Qed.

Lemma step_KK : forall n e, G n -> F n -> KK n -> fresh n e -> KK (step n e).
Proof.
  intros n e HG HF HK U. destruct e as [id| | |id| |id|k0|id i]; cbn [step fresh] in *.
  - destruct HK as (HK & BB & LB).
    assert (K1 : K (alloc id 0 n)) by (apply alloc_K; [exact HG | exact HK | lia | intros _; exact U]).
    assert (B1 : B (alloc id 0 n)) by (apply B_alloc; [exact HG | exact BB | right; exact U]).
    assert (HN : hp (alloc id 0 n) (next n) = Tk id 0) by (cbn; unfold store; rewrite Nat.eqb_refl; reflexivity).
    assert (UQ : forall r, (r < S (next n))%nat -> tId (hp (alloc id 0 n) r) = id -> r = next n).
    { intros r R T. destruct (Nat.eq_dec r (next n)) as [E | N]; [exact E|]. exfalso. apply (U r); [lia|]. cbn in T. unfold store in T.
      destruct (Nat.eqb_spec r (next n)); [contradiction | exact T]. }
    pose proof HK as (_ & _ & FN & (_ & _ & OW) & _). pose proof HG as (_ & _ & _ & GD).
    destruct K1 as (A & (N1 & N2) & C & (D1 & D2 & D3) & E).
    destruct (leader n) eqn:EL.
    + unfold replicate. cbn [noopDone alloc]. destruct (noopDone n).
      * split; [split; [|split; [|split; [|split]]]|split].
        -- exact A.
        -- cbn [withBatch batch hp]. change (batch (alloc id 0 n)) with (batch n) in *. split.
           ++ apply NoDup_rev in N1. rewrite <- (rev_involutive (batch n ++ [next n])). apply NoDup_rev. rewrite rev_app_distr. cbn. constructor; [|exact N1].
              rewrite <- in_rev. intros X. apply GD in X. lia.
           ++ intros q Q. apply in_app_iff in Q as [Q | [<- | []]]; [apply N2, Q|]. change (tIdx (hp (alloc id 0 n) (next n)) = 0). rewrite HN. reflexivity.
        -- exact C.
        -- split; [exact D1|]. split; [exact D2|]. intros k q Q. destruct (D3 k q Q) as (X1 & X2 & X3 & X4 & X5). repeat split; auto.
           cbn [withBatch batch alloc]. rewrite in_app_iff. intros [X | [X | []]]; [apply X4, X|]. destruct (OW k q Q) as (_ & Y & _). lia.
        -- exact E.
        -- intros p Q r R T. cbn [withBatch batch alloc] in Q. apply in_app_iff in Q as [Q | [<- | []]]; [apply (B1 p Q r R T)|].
           apply UQ; [exact R|]. change (tId (hp (alloc id 0 n) r) = tId (hp (alloc id 0 n) (next n))) in T. rewrite HN in T. exact T.
        -- cbn. rewrite EL. discriminate.
      * split; [split; [|split; [|split; [|split]]]|split]; try assumption.
        -- split; assumption.
        -- split; [exact D1|]. split; [exact D2|]. exact D3.
        -- intros _. destruct (E EL) as (b & J & (E1 & E2 & E3)). exists b. split; [exact J|].
           unfold walSet, withWal. cbn [wal]. unfold iset. rewrite HN. cbn [tIdx tId]. cbn [Z.ltb Z.compare].
           split; [|split]; cbn [ordered byId await].
           ++ intros k q X Y. apply put_In in X as [[= -> ->] | X]; [|apply (E1 k q X Y)].
              change (0 < tIdx (hp (alloc id 0 n) (next n))) in Y. rewrite HN in Y. cbn in Y. lia.
           ++ intros k q X r R T. rewrite get_put in X. destruct (Z.eqb_spec id k) as [Q | Q]; [|apply (E2 k q X r R T)].
              injection X as <-. apply UQ; [exact R | exact (eq_trans T (eq_sym Q))].
           ++ exact E3.
        -- cbn. rewrite EL. discriminate.
    + pose proof (LB eq_refl) as BE. split; [split; [|split; [|split; [|split]]]|split]; try assumption.
      * split; assumption.
      * unfold wafSet, withWaf. cbn [waf]. unfold iset. rewrite HN. cbn [tIdx tId]. cbn [Z.ltb Z.compare].
        split; [exact D1|]. split; cbn [byId await].
        -- intros k q X. rewrite get_put. destruct (Z.eqb_spec id k); [discriminate|].
           apply (D2 k q). destruct X as [X | X]; apply put_In in X as [[= -> ->] | X]; auto; congruence.
        -- intros k q X. assert (X' : (k, q) = (id, next n) \/ In (k, q) (byId (waf (alloc id 0 n))) \/ In (k, q) (await (waf (alloc id 0 n)))).
           { destruct X as [X | X]; apply put_In in X as [X | X]; auto. }
           destruct X' as [[= -> ->] | X']; [|apply (D3 k q X')].
           change (id = tId (hp (alloc id 0 n) (next n)) /\ (next n < S (next n))%nat /\ tIdx (hp (alloc id 0 n) (next n)) = 0 /\ ~ In (next n) (batch n) /\ ~ In (next n) (fin n)).
           rewrite HN, BE. repeat split; auto. intros Y. apply FN in Y. lia.
      * intros _. exact BE.
  - destruct (leader n) eqn:EL; [|exact HK]. destruct HK as ((A & (N1 & N2) & C & D & E) & BB & LB).
    destruct (E EL) as (b & J & W). unfold flush. pose proof HG as (GA & GB & GC & GD).
    assert (G0 : G (withBatch [] n)) by (split; [|split; [|split]]; auto; intros q []).
    assert (D0 : okWaf (withBatch [] n) (waf n)). { destruct D as (X1 & X2 & X3). split; [exact X1|]. split; [exact X2|]. intros k q Q. destruct (X3 k q Q) as (Y1 & Y2 & Y3 & _ & Y5). repeat split; auto. }
    destruct (flush_K (withBatch [] n) b G0 A D0 J W (batch n) N1) as (M1 & M2 & M3 & M4 & M5 & M6 & M7 & M8).
    + intros q Q. split; [apply GD, Q | apply N2, Q].
    + intros p Q k. destruct D as (_ & _ & X3). split; intros X; [destruct (X3 k p (or_introl X)) as (_ & _ & _ & Y & _) | destruct (X3 k p (or_intror X)) as (_ & _ & _ & Y & _)]; contradiction.
    + exact BB.
    + split; [split; [|split; [|split; [|split]]]|split].
      * exact M1.
      * rewrite M6. split; [constructor | intros q []].
      * rewrite M7, M8. exact C.
      * exact M2.
      * intros _. exists b. auto.
      * intros p Q. rewrite M6 in Q. destruct Q.
      * intros _. rewrite M6. reflexivity.
  - apply commit_KK; assumption.
  - apply lead_KK; assumption.
  - unfold stepDown. destruct (leader n) eqn:EL; [|exact HK]. destruct HK as ((A & _ & C & D & _) & BB & LB).
    split; [split; [|split; [|split; [|split]]]|split]; try assumption; try discriminate.
    + cbn. split; [constructor | intros q []].
    + destruct D as (X1 & X2 & X3). split; [exact X1|]. split; [exact X2|]. intros k q Q. destruct (X3 k q Q) as (Y1 & Y2 & Y3 & _ & Y5). repeat split; auto.
    + intros p [].
    + reflexivity.
  - destruct (leader n) eqn:EL; [exact HK|]. destruct HK as (HK & BB & LB). pose proof (LB EL) as BE.
    set (i := Z.of_nat (length (log n)) + 1).
    assert (K1 : K (alloc id i n)) by (apply alloc_K; [exact HG | exact HK | unfold i; lia | congruence]).
    destruct K1 as (A & N1 & C & D & _).
    split; [split; [|split; [|split; [|split]]]|split]; try assumption.
    + intros j q J. unfold at_ in J. cbn [log] in J. apply at_app in J as [J | [-> ->]]; [apply A, J|].
      cbn. unfold store. rewrite Nat.eqb_refl. reflexivity.
    + cbn. rewrite EL. discriminate.
    + intros p Q. cbn in Q. rewrite BE in Q. destruct Q.
  - destruct (leader n) eqn:EL; [exact HK|]. destruct HK as ((A & N1 & C & D & _) & BB & LB). pose proof (LB EL) as BE.
    split; [split; [|split; [|split; [|split]]]|split]; try assumption.
    + intros j q J. apply A. unfold at_ in *. cbn [log] in J. rewrite <- (firstn_skipn (Nat.max k0 (applied n)) (log n)). rewrite nth_error_app1; [exact J|]. apply nth_error_Some. congruence.
    + discriminate.
    + intros _. exact BE.
  - destruct (leader n) eqn:EL; [exact HK|]. destruct (get id (byId (waf n))) as [q|] eqn:EG; [|exact HK].
    destruct (Z.ltb_spec 0 i) as [I | I]; [|exact HK]. destruct HK as ((A & N1 & C & D & _) & BB & LB). pose proof (LB EL) as BE.
    pose proof (get_In _ _ _ EG) as IN. pose proof D as (D1 & D2 & D3). destruct (D3 _ _ (or_introl IN)) as (T & L & Z & _ & NF).
    assert (NL : forall r, In r (log n) -> r <> q). { intros r R ->. destruct (waf_not_log n id q HG D R). contradiction. }
    apply finish_waf; cbn [leader batch next waf fin log hp]; auto.
    + pose proof HG as (GA & GB & GC & GD). assert (EX : ext (next n) (hp n) (assign q i (hp n))) by (apply ext_assign; exact I).
      split; [|split; [|split]]; cbn; auto.
      * eapply wf_ext; [exact EX | apply le_n | exact GA].
      * eapply wf_ext; [exact EX | apply le_n | exact GB].
      * intros r R. destruct (GC r R) as [X Y]. split; [exact X | apply EX; assumption].
    + intros j r J. cbn [hp]. rewrite assign_P; [apply A, J|]. intros <-. apply (NL q); [eapply nth_error_In, J | reflexivity].
    + intros k r X. destruct (D3 k r X) as (X1 & X2 & X3 & X4 & X5). rewrite assign_id. repeat split; auto.
      destruct (Nat.eq_dec r q) as [-> | N]; [left; reflexivity | right]. rewrite assign_P by congruence. exact X3.
    + right. exists id. exact IN.
    + intros X. destruct (NL q X eq_refl).
    + intros r R k. apply (waf_not_log n k r HG D R).
Qed.

Lemma run_KK : forall es, once es -> KK (run start es).
Proof.
  intros es. induction es as [|e es IH] using rev_ind; intros O.
  - split; [exact K_start|]. split; [intros p [] | reflexivity].
  - rewrite run_app. cbn [run fold_left]. apply step_KK.
    + apply run_G, G_start.
    + apply run_F, F_start.
    + apply IH. intros a e' b ->. apply (O a e' (b ++ [e])). rewrite <- app_assoc. reflexivity.
    + pose proof (O es e [] eq_refl) as X. destruct e; cbn [fresh]; auto; apply run_ids; try exact X; cbn; intros q Q; lia.
Qed.

Lemma told_logged : forall es b j p, once es -> leader (run start es) = true -> at_ (run start es) b (noop (run start es)) ->
  (b <= j)%nat -> (applied (run start es) <= j)%nat -> at_ (run start es) j p -> In p (snd (iall (hp (run start es)) (wal (run start es)))).
Proof.
  intros es b j p O L J X Y Q. destruct (run_KK es O) as ((A & _ & _ & _ & E) & _). destruct (E L) as (b' & J' & W).
  assert (b' = b) by (pose proof (A _ _ J); pose proof (A _ _ J'); lia). subst b'.
  apply okWal_repair in W; [|exact A]. destruct W as (_ & _ & W). unfold iall. cbn [snd]. apply in_map_iff. exists (Z.of_nat j + 1, p). split; [reflexivity | apply W; assumption].
Qed.
