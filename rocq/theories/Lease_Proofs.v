(** The timed invariants behind C72: what an acknowledging follower promises,
    and what a leader that counts enough of them therefore knows. *)
From Coq Require Import List Arith Bool ZArith Lia.
From Verif Require Import Base Raft_Model Raft_Spec Raft_Abs Raft_InvL Raft_InvL2 Raft_InvC Raft_InvC2 Raft_Inv
  Raft_Refine Raft_Refine2 Raft_Check Raft_Props Lease_Model Lease_Spec Lease_Raft Lease_Handlers.
Import ListNotations.
Open Scope nat_scope.

Lemma getA_setA : forall A k x k' (l : list (nat * A)),
  getA k' (setA k x l) = if k =? k' then Some x else getA k' l.
Proof.
  intros A k x k'. induction l as [|[j y] r IH]; simpl.
  - destruct (k =? k'); auto.
  - destruct (Nat.eqb_spec j k) as [->|Hj]; simpl.
    + destruct (Nat.eqb_spec k k'); auto.
    + destruct (Nat.eqb_spec j k') as [->|]; auto. destruct (Nat.eqb_spec k k'); [congruence|auto].
Qed.
Lemma getA_filter : forall A h k (l : list (nat * A)) v,
  getA k (filter (fun x => negb (fst x =? h)) l) = Some v -> getA k l = Some v.
Proof.
  intros A h k l v. induction l as [|[j y] r IH]; simpl; auto.
  destruct (Nat.eqb_spec j h) as [->|]; simpl.
  - destruct (Nat.eqb_spec h k) as [->|]; auto. intros H. exfalso. clear IH.
    induction r as [|[j' y'] r IH]; simpl in H; [discriminate|]. destruct (Nat.eqb_spec j' k) as [->|]; simpl in H; auto.
    destruct (Nat.eqb_spec j' k); [contradiction|auto].
  - destruct (j =? k); auto.
Qed.
Lemma In_setF : forall q s l x, In x (setF q s l) -> x = (q, s) \/ In x l.
Proof.
  induction l as [|[a b] r IH]; simpl; intros x H; [destruct H; auto|].
  destruct (pid_eqb a q) eqn:E.
  - assert (a = q). { destruct a, q. unfold pid_eqb in E. apply andb_true_iff in E. destruct E as (E1 & E2).
      apply Nat.eqb_eq in E1, E2. simpl in *. congruence. }
    subst. destruct H; auto.
  - destruct H as [<-|H]; auto. destruct (IH _ H); auto.
Qed.
Lemma stamps_get : forall ms i stamp u to j s, getA to (stamps i ms stamp u) = Some (j, s) ->
  getA to u = Some (j, s) \/ (i <= j < i + length ms /\ s = stamp to).
Proof.
  induction ms as [|x ms IH]; simpl; intros i stamp u to j s H; auto.
  destruct x; apply IH in H; destruct H as [H|(H & E)]; auto; try (right; split; auto; lia).
  rewrite getA_setA in H. destruct (Nat.eqb_spec to0 to) as [->|]; auto. injection H as <- <-. right. split; auto. lia.
Qed.

Section lp.
Variable c : conf.
Variables d W eps : Z.
Hypothesis size : 1 < length (c_cfg c).
Hypothesis CK : clocksOk c W eps.
Hypothesis drift0 : forall n, (0 <= c_drift c n)%Z.

Notation cfg := (c_cfg c).
Notation gn ts n := (g_node (t_g ts) n).
Notation gnet ts := (g_net (t_g ts)).

Lemma mono : forall a u v, (u <= v)%Z -> (c_clk c a u <= c_clk c a v)%Z.
Proof. apply CK. Qed.

Definition srcOf (ev : nevent) : nat := match ev with NRecv k _ _ => k | _ => 0 end.

Lemma tstep_shape : forall ts t late n ev cut ts', tstep c ts t late n ev cut = Some ts' ->
  (t_now ts <= t)%Z /\ allowed c ts t n ev = true /\ step cfg (t_g ts) n (fill c ts t n ev) cut = Some (t_g ts') /\
  t_now ts' = t /\
  exists new m' effs, gnet ts' = gnet ts ++ new /\ t_log ts' = t_log ts ++ map (fun _ => (t, srcOf ev)) new /\
    handle cfg (gnet ts) n (gn ts n) (fill c ts t n ev) = Some (m', effs) /\
    (forall x, In x new -> In x (eff_msgs effs)) /\
    (forall k, k <> n -> gn ts' k = gn ts k) /\ (forall k, k <> n -> t_l ts' k = t_l ts k) /\
    match cut with
    | None => gn ts' n = mkN m' (eff_disks (n_disk (gn ts n)) effs) /\
        t_l ts' n = (let b := lnext ts n (fill c ts t n ev) (c_clk c n t) m' in
          mkLN (l_know b) (l_ae b) (stamps (length (gnet ts)) new (stampOf ev late (c_clk c n t)) (l_unacked b)) (l_full b) (l_down b))
    | Some k => m_role (n_mem (gn ts' n)) = Follower /\
        exists m1, t_l ts' n = mkLN false None [] [] (l_ae (lnext ts n (fill c ts t n ev) (c_clk c n t) m1))
    end.
Proof.
  intros ts t late n ev cut ts' H. unfold tstep in H.
  destruct ((t <? t_now ts)%Z || negb (allowed c ts t n ev)) eqn:Eb; [discriminate|].
  apply orb_false_iff in Eb. destruct Eb as (E1 & E2). apply Z.ltb_ge in E1. apply negb_false_iff in E2.
  split; auto. split; auto.
  destruct (step cfg (t_g ts) n (fill c ts t n ev) cut) as [g'|] eqn:Es; [|discriminate].
  injection H as <-. split; auto. cbn [t_now t_g t_log t_l]. split; auto.
  unfold step in Es. destruct (handle cfg (gnet ts) n (gn ts n) (fill c ts t n ev)) as [[m' effs]|]; [|discriminate].
  assert (SK : forall l, skipn (length (gnet ts)) (gnet ts ++ l) = l).
  { intros l. rewrite skipn_app, skipn_all, Nat.sub_diag. reflexivity. }
  destruct cut as [k|]; injection Es as <-; cbn [g_net g_node] in *; rewrite SK.
  - exists (eff_msgs (firstn k effs)), m', effs. split; auto. split; auto. split; auto.
    split; [intros x; apply eff_msgs_firstn|]. split; [intros; apply upd_other; auto|]. split; [intros; apply upd_other; auto|].
    rewrite !upd_same. split; [reflexivity|]. eexists. reflexivity.
  - exists (eff_msgs effs), m', effs. split; auto. split; auto. split; auto.
    split; auto. split; [intros; apply upd_other; auto|]. split; [intros; apply upd_other; auto|].
    rewrite !upd_same. split; reflexivity.
Qed.

Definition alive (ts : tstate) (f T : nat) (r : Z) : Prop :=
  (exists a, ((l_know (t_l ts f) = true /\ l_ae (t_l ts f) = Some a) \/ l_down (t_l ts f) = Some a) /\ (c_clk c f r <= a)%Z) /\
  m_role (n_mem (gn ts f)) = Follower /\
  forall T', T < T' -> ~ votedIn (gnet ts) f T' /\ forall i, ~ sentAE (gnet ts) (f, i) T'.
Definition Prom (ts : tstate) (f T : nat) (r : Z) : Prop :=
  (r <= t_now ts)%Z /\ ((c_clk c f (t_now ts) < c_clk c f r + c_minElec c f)%Z -> alive ts f T r).

Lemma fill_ne : forall ts t n ev e, fill c ts t n ev = e -> e <> NElect -> e <> NPreVote -> ev <> NElect /\ ev <> NPreVote.
Proof. intros. split; intros ->; cbn in H; congruence. Qed.

Lemma lnext_keep : forall ts n ev now m' a,
  l_know (t_l ts n) = true -> l_ae (t_l ts n) = Some a -> ev <> NElect -> ev <> NPreVote -> ev <> NStepDown ->
  (forall k b1 b2, ev = NRecv k b1 b2 -> isRV (gnet ts) k -> b1 = true) -> ~ higherReply ts n ev ->
  l_know (lnext ts n ev now m') = true /\ (l_ae (lnext ts n ev now m') = Some a \/ l_ae (lnext ts n ev now m') = Some now).
Proof.
  intros ts n ev now m' a Hk Ha N1 N2 N3 Hrv Hh. unfold lnext.
  destruct ev; try contradiction; cbn [l_know l_ae]; auto.
  destruct (nth_error (gnet ts) k) as [x|] eqn:En; auto.
  destruct x as [x1 to t li lt mc|from to x2 g ft t mc|from to T lt prev pt es lci mc|from to l st t rej gap lcri li mc].
  - assert (b1 = true) as -> by (eapply Hrv; eauto; do 6 eexists; eauto).
    rewrite orb_true_r. cbn [negb]. rewrite andb_false_r. auto.
  - destruct (Nat.ltb_spec (mt (gn ts n)) t) as [L|L].
    + exfalso. apply Hh. exists k, b1, b2. split; auto. left. do 7 eexists. eauto.
    + destruct (_ && _); cbn; auto.
  - destruct (_ && _); cbn; auto.
  - destruct (Nat.ltb_spec (mt (gn ts n)) t) as [L|L].
    + exfalso. apply Hh. exists k, b1, b2. split; auto. right. do 10 eexists. eauto.
    + destruct (_ && _); auto. destruct (getA _ _) as [[i s]|]; auto. destruct (_ =? _); auto.
Qed.

Lemma fill_recv : forall ts t n ev k b1 b2, fill c ts t n ev = NRecv k b1 b2 -> exists x, ev = NRecv k x b2.
Proof.
  intros ts t n ev k b1 b2 H. destruct ev; cbn in H; try discriminate.
  destruct (nth_error (gnet ts) k0) as [x|]; [destruct x|]; injection H as <- <- <-; eauto.
Qed.

Lemma new_from : forall ts t n ev m' effs (new : list msg),
  handle cfg (gnet ts) n (gn ts n) (fill c ts t n ev) = Some (m', effs) ->
  (forall x, In x new -> In x (eff_msgs effs)) -> forall x, In x new -> mfrom x = n.
Proof. intros. eapply handle_from; eauto. Qed.

Lemma alive_net : forall (ts ts' : tstate) f T new,
  gnet ts' = gnet ts ++ new -> (forall x, In x new -> mfrom x = f -> isAE x = false /\ isGrant x = false) ->
  (forall T', T < T' -> ~ votedIn (gnet ts) f T' /\ forall i, ~ sentAE (gnet ts) (f, i) T') ->
  forall T', T < T' -> ~ votedIn (gnet ts') f T' /\ forall i, ~ sentAE (gnet ts') (f, i) T'.
Proof.
  intros ts ts' f T new En Hn H T' HT. destruct (H T' HT) as (A & B). split.
  - intros (from & to & cc & ft & mc & Ef & Hi). rewrite En in Hi. apply in_app_iff in Hi. destruct Hi as [Hi|Hi].
    + apply A. do 5 eexists. eauto.
    + destruct (Hn _ Hi Ef) as (_ & X). discriminate.
  - intros i (to & lt & prev & pt & es & lci & mc & Hi). rewrite En in Hi. apply in_app_iff in Hi. destruct Hi as [Hi|Hi].
    + apply (B i). do 7 eexists. eauto.
    + destruct (Hn _ Hi eq_refl) as (X & _). discriminate.
Qed.

Lemma Prom_step : forall ts t late n ev cut ts' f T r,
  keeps c d ts t late n ev cut -> tstep c ts t late n ev cut = Some ts' -> Prom ts f T r -> Prom ts' f T r.
Proof.
  intros ts t late n ev cut ts' f T r (_ & K2 & K3) H (Hr & HA).
  destruct (tstep_shape _ _ _ _ _ _ _ H) as (S1 & S2 & S3 & S4 & new & m' & effs & N1 & N2 & N3 & N4 & N5 & N6 & N7).
  pose proof (new_from _ _ _ _ _ _ _ N3 N4) as Hf.
  split; [lia|]. rewrite S4. intros HC. assert (M : (c_clk c f (t_now ts) <= c_clk c f t)%Z) by (apply mono; auto).
  destruct (HA ltac:(lia)) as ((a & Ha & La) & Hrole & HV). clear HA.
  destruct (Nat.eq_dec n f) as [->|NE].
  2: { split; [rewrite N6 by auto; eauto|]. split; [rewrite N5 by auto; auto|].
       eapply alive_net; eauto. intros x Hx E. exfalso. apply NE. rewrite <- (Hf x Hx). auto. }
  destruct Ha as [(Hk & Ha)|Ha].
  2: { specialize (K2 a Ha). lia. }
  assert (HL : heardLately c ts t f) by (exists a; split; auto; lia).
  specialize (K3 HL).
  assert (NE : ev <> NElect /\ ev <> NPreVote).
  { split; intros ->; cbn in S2; unfold timerDue in S2; rewrite Ha in S2; apply Z.leb_le in S2; unfold clk in S2; lia. }
  assert (ST : forall k b1 b2, fill c ts t f ev = NRecv k b1 b2 -> isRV (gnet ts) k -> b1 = true).
  { intros k b1 b2 E (x1 & to & t0 & li & lt & mc & En). destruct (fill_recv _ _ _ _ _ _ _ E) as (x & ->).
    cbn in E. rewrite En in E. injection E as <-. unfold sticky. rewrite Hk, Ha. cbn. apply Z.ltb_lt.
    unfold clk. specialize (drift0 f). lia. }
  assert (NF : fill c ts t f ev <> NElect /\ fill c ts t f ev <> NPreVote /\ fill c ts t f ev <> NStepDown).
  { split; [|split].
    - intros E. destruct ev; cbn in E; try discriminate; try tauto. destruct (nth_error (gnet ts) k) as [x|]; [destruct x|]; discriminate.
    - intros E. destruct ev; cbn in E; try discriminate; try tauto. destruct (nth_error (gnet ts) k) as [x|]; [destruct x|]; discriminate.
    - intros E. rewrite E in N3. cbn in N3. unfold leaderStepDown in N3. rewrite Hrole in N3. discriminate. }
  destruct NF as (F1 & F2 & F3).
  assert (HR : ~ higherReply ts f (fill c ts t f ev)).
  { intros (k & b1 & b2 & E & X). apply K3. destruct (fill_recv _ _ _ _ _ _ _ E) as (x & ->). exists k, x, b2. auto. }
  destruct (handle_quiet _ _ _ _ _ _ _ N3 Hrole F1 ST) as (Q1 & Q2).
  assert (V' : forall T', T < T' -> ~ votedIn (gnet ts') f T' /\ forall i, ~ sentAE (gnet ts') (f, i) T') by (eapply alive_net; eauto).
  assert (Hnow : (c_clk c f r <= c_clk c f t)%Z) by (apply mono; lia).
  destruct cut as [k|].
  - destruct N7 as (R1 & m1 & R2). destruct (lnext_keep ts f _ (c_clk c f t) m1 a Hk Ha F1 F2 F3 ST HR) as (_ & X).
    split; [|split; auto]. rewrite R2. cbn. destruct X as [X|X]; rewrite X; eexists; (split; [right; reflexivity|auto]).
  - destruct N7 as (R1 & R2). destruct (lnext_keep ts f _ (c_clk c f t) m' a Hk Ha F1 F2 F3 ST HR) as (Y & X).
    split; [|split; [rewrite R1; auto|auto]]. rewrite R2. cbn. rewrite Y. destruct X as [X|X]; rewrite X; eexists; (split; [left; split; reflexivity|auto]).
Qed.

(** The timed invariant. *)
Record TI (ts : tstate) : Prop := mkTI {
  ti_len : length (t_log ts) = length (gnet ts);
  ti_past : forall x, In x (t_log ts) -> (fst x <= t_now ts)%Z;
  ti_LI : forall n, LI (gn ts n);
  ti_un : forall n to i s, getA to (l_unacked (t_l ts n)) = Some (i, s) ->
    exists u k, nth_error (t_log ts) i = Some (u, k) /\ (s <= c_clk c n u + d)%Z;
  ti_ack : forall j from to l st t rej gap lc li mc, nth_error (gnet ts) j = Some (Ack from to l st t rej gap lc li mc) ->
    st = t -> exists r k u x, nth_error (t_log ts) j = Some (r, k) /\ nth_error (t_log ts) k = Some (u, x) /\ (u <= r)%Z /\
      Prom ts (fst from) t r;
  ti_full : forall n q s, In (q, s) (l_full (t_l ts n)) -> m_role (n_mem (gn ts n)) = Leader ->
    exists r, (s <= c_clk c n r + d)%Z /\ Prom ts (fst q) (mt (gn ts n)) r;
  ti_cand : forall n, m_role (n_mem (gn ts n)) = Candidate -> l_full (t_l ts n) = []
}.

Lemma TI_init : TI tinit.
Proof.
  constructor; try (intros; discriminate).
  - reflexivity.
  - intros x [].
  - intros j from to l st t rej gap lc li mc H. destruct j; discriminate.
Qed.

Lemma voted_le : forall ts gh v T, RInv cfg (g_node (t_g ts)) (gnet ts) gh -> votedIn (gnet ts) v T -> T <= mt (gn ts v).
Proof.
  intros ts gh v T (I & _) (from & to & cc & ft & mc & <- & Hi). destruct I as (HN & _ & HM).
  destruct (HM _ Hi) as (_ & X). destruct (X eq_refl) as (_ & G). pose proof (nl_le _ _ _ _ (HN (fst from))).
  destruct (nl_gv _ _ _ _ (HN (fst from)) _ _ G) as [|(? & _)]; lia.
Qed.
Lemma sent_le : forall ts gh p T, RInv cfg (g_node (t_g ts)) (gnet ts) gh -> sentAE (gnet ts) p T -> T <= mt (gn ts (fst p)).
Proof.
  intros ts gh p T (I & _ & EV & _) (to & lt & prev & pt & es & lci & mc & Hi). destruct I as (HN & _ & HM).
  destruct (HM _ Hi) as (X & _). destruct (EV _ _ X) as (G & _). pose proof (nl_le _ _ _ _ (HN (fst p))).
  destruct (nl_gv _ _ _ _ (HN (fst p)) _ _ G) as [|(? & _)]; lia.
Qed.

Lemma getA_in : forall A k (x : A) l, getA k l = Some x -> In (k, x) l.
Proof.
  intros A k x. induction l as [|[j y] r IH]; simpl; [discriminate|].
  destruct (Nat.eqb_spec j k) as [->|]; auto. intros H. injection H as <-. auto.
Qed.
Lemma stamp_le : forall ev late now to, lateOk d late -> (stampOf ev late now to <= now + d)%Z.
Proof.
  intros ev late now to (D & H).
  assert (B : (now + lateAt late to <= now + d)%Z).
  { unfold lateAt. destruct (getA to late) as [z|] eqn:E; [|lia]. apply getA_in in E. specialize (H _ E). simpl in H. lia. }
  unfold stampOf. destruct ev; auto; lia.
Qed.

Lemma unacked_next : forall ts n ev now m' to i s,
  getA to (l_unacked (lnext ts n ev now m')) = Some (i, s) -> getA to (l_unacked (t_l ts n)) = Some (i, s).
Proof.
  intros ts n ev now m' to i s. unfold lnext. destruct ev; auto; try discriminate.
  - destruct (nth_error (gnet ts) k) as [x|]; auto.
    destruct x; repeat match goal with |- context [if ?b then _ else _] => destruct b end; auto.
    destruct (getA (fst from) (l_unacked (t_l ts n))) as [[i0 s0]|]; auto. destruct (_ =? _); auto.
  - cbn [l_unacked]. apply getA_filter.
Qed.
Lemma full_next : forall ts n ev now m' q s,
  In (q, s) (l_full (lnext ts n ev now m')) -> In (q, s) (l_full (t_l ts n)) \/
  exists k b1 b2 to l st rej gap lc li mc i, ev = NRecv k b1 b2 /\
    nth_error (gnet ts) k = Some (Ack q to l st (mt (gn ts n)) rej gap lc li mc) /\
    l = (n, m_inc (n_mem (gn ts n))) /\ m_role (n_mem (gn ts n)) = Leader /\
    getA (fst q) (l_unacked (t_l ts n)) = Some (i, s) /\ i = snd (nth k (t_log ts) (0%Z, 0)).
Proof.
  intros ts n ev now m' q s. unfold lnext. destruct ev; auto.
  - intros [].
  - destruct (nth_error (gnet ts) k) as [x|] eqn:En; auto.
    destruct x as [x1 to t li lt mc|from to x2 g ft t mc|from to T lt prev pt es lci mc|from to l st t rej gap lcri li mc];
      try (repeat match goal with |- context [if ?b then _ else _] => destruct b end; auto; fail).
    destruct (mt (gn ts n) <? t); auto. destruct ((t =? mt (gn ts n)) && is_leader (m_role (n_mem (gn ts n))) && pid_eqb l (n, m_inc (n_mem (gn ts n)))) eqn:Eb; auto.
    apply andb_true_iff in Eb. destruct Eb as (Eb & E3). apply andb_true_iff in Eb. destruct Eb as (E1 & E2). apply Nat.eqb_eq in E1.
    destruct (getA (fst from) (l_unacked (t_l ts n))) as [[i0 s0]|] eqn:Eg; auto.
    destruct (Nat.eqb_spec i0 (snd (nth k (t_log ts) (0%Z, 0)))) as [->|]; auto.
    cbn [l_full]. intros Hi. apply In_setF in Hi. destruct Hi as [Hi|Hi]; auto. injection Hi as -> ->. right.
    subst t. do 12 eexists. split; [reflexivity|]. split; [exact En|].
    split. { destruct l as [a b]. unfold pid_eqb in E3. apply andb_true_iff in E3. destruct E3 as (X & Y). apply Nat.eqb_eq in X, Y. simpl in *. congruence. }
    split; [destruct (m_role (n_mem (gn ts n))); discriminate || auto|]. split; [exact Eg|reflexivity].
  - cbn [l_full]. intros Hi. apply filter_In in Hi. tauto.
Qed.

Lemma full_elect : forall ts n now m', l_full (lnext ts n NElect now m') = [].
Proof. reflexivity. Qed.

Lemma nth_old : forall A (a b : list A) i x, nth_error a i = Some x -> nth_error (a ++ b) i = Some x.
Proof. intros A a b i x H. rewrite nth_error_app1; auto. apply nth_error_Some. congruence. Qed.

Lemma TI_step : forall ts t late n ev cut ts' gh,
  keeps c d ts t late n ev cut -> guarded cfg (t_g ts) n (fill c ts t n ev) cut -> tstep c ts t late n ev cut = Some ts' ->
  RInv cfg (g_node (t_g ts)) (gnet ts) gh -> TI ts -> TI ts'.
Proof.
  intros ts t late n ev cut ts' gh K G H R I.
  assert (PS : forall f T r, Prom ts f T r -> Prom ts' f T r) by (intros; eapply Prom_step; eauto).
  destruct (tstep_shape _ _ _ _ _ _ _ H) as (S1 & S2 & S3 & S4 & new & m' & effs & N1 & N2 & N3 & N4 & N5 & N6 & N7).
  pose proof (new_from _ _ _ _ _ _ _ N3 N4) as Hf. destruct I as [I1 I2 I3 I4 I5 I6 I7].
  set (ev' := fill c ts t n ev) in *.
  constructor.
  - rewrite N1, N2, !app_length, map_length. lia.
  - intros x Hx. rewrite S4. rewrite N2 in Hx. apply in_app_iff in Hx. destruct Hx as [Hx|Hx].
    + specialize (I2 x Hx). lia.
    + apply in_map_iff in Hx. destruct Hx as (y & <- & _). simpl. lia.
  - intros k. destruct (Nat.eq_dec k n) as [->|]; [|rewrite N5 by auto; auto].
    destruct cut as [q|].
    + intros Hr. destruct N7 as (X & _). congruence.
    + destruct N7 as (X & _). rewrite X. eapply handle_LI; eauto.
      * apply (cpre_len _ _ _ _ _ (nc_cm _ _ _ _ _ _ (proj1 (proj1 (proj2 R)) n))).
      * apply (nc_am _ _ _ _ _ _ (proj1 (proj1 (proj2 R)) n)).
  - intros k to i s Hg. destruct (Nat.eq_dec k n) as [->|].
    2: { rewrite N6 in Hg by auto. destruct (I4 _ _ _ _ Hg) as (u & x & A & B). exists u, x. split; auto. rewrite N2. apply nth_old; auto. }
    destruct cut as [q|].
    + destruct N7 as (_ & m1 & X). rewrite X in Hg. discriminate.
    + destruct N7 as (_ & X). rewrite X in Hg. cbn [l_unacked] in Hg. apply stamps_get in Hg. destruct Hg as [Hg|(Hi & ->)].
      * apply unacked_next in Hg. destruct (I4 _ _ _ _ Hg) as (u & x & A & B). exists u, x. split; auto. rewrite N2. apply nth_old; auto.
      * exists t, (srcOf ev). split; [|apply stamp_le; apply K].
        rewrite N2, nth_error_app2 by lia.
        assert (L : i - length (t_log ts) < length new) by lia.
        destruct (nth_error new (i - length (t_log ts))) as [y|] eqn:Ey; [|apply nth_error_None in Ey; lia].
        apply (map_nth_error (fun _ => (t, srcOf ev))) in Ey. exact Ey.
  - intros j from to l st t0 rej gap lc li mc Hj Est. rewrite N1 in Hj.
    destruct (Nat.lt_ge_cases j (length (gnet ts))) as [L|L].
    + rewrite nth_error_app1 in Hj by auto. destruct (I5 _ _ _ _ _ _ _ _ _ _ _ Hj Est) as (r & k & u & x & A1 & A2 & A3 & A4).
      exists r, k, u, x. split; [rewrite N2; apply nth_old; auto|]. split; [rewrite N2; apply nth_old; auto|]. auto.
    + rewrite nth_error_app2 in Hj by auto. pose proof (nth_error_In _ _ Hj) as Hin.
      (* the ack was sent in this step, by a node that took an AppendEntries *)
      assert (AE : exists k b1 b2 from1 to1 T lt prev pt es lci mc1, ev' = NRecv k b1 b2 /\
         nth_error (gnet ts) k = Some (AppendEntries from1 to1 T lt prev pt es lci mc1) /\
         handleAppendEntries n (gn ts n) from1 T lt prev pt es lci mc1 = (m', effs)).
      { apply N4 in Hin. clear - N3 Hin. destruct ev'; cbn [handle] in N3.
        - injection N3 as <- <-. destruct Hin.
        - unfold beginElection in N3. destruct (_ || _); [discriminate|]. injection N3 as <- <-.
          match type of Hin with In _ (eff_msgs (map (fun to => Send (@?h to)) ?l)) => rewrite (eff_msgs_sends nat h l) in Hin end.
          apply in_map_iff in Hin. destruct Hin as (v & E & _). discriminate.
        - unfold beginPreVote in N3. destruct (is_leader _); [discriminate|]. injection N3 as <- <-. destruct Hin.
        - destruct (nth_error (gnet ts) k) as [y|] eqn:En; [|discriminate]. destruct (msg_to y =? n); [|discriminate].
          destruct y as [x1 tx t1 li1 lt mcx|fx tx x2 g ft t1 mcx|fx tx T lt prev pt es lci mcx|fx tx lx stx tx1 rejx gapx lcri lix mcx]; cbn [receive] in N3.
          + exfalso. injection N3 as N3. unfold handleRequestVote in N3.
            destruct (t1 <? mt (gn ts n)); [injection N3 as <- <-; destruct Hin as [E|[]]; discriminate|].
            destruct (is_leader _ || b1); [injection N3 as <- <-; destruct Hin as [E|[]]; discriminate|].
            assert (Z : eff_msgs (snd (if mt (gn ts n) <? t1 then becomeFollower (n_mem (gn ts n)) t1 (Some mcx) else (n_mem (gn ts n), []))) = [])
              by (destruct (mt (gn ts n) <? t1); [apply bf_quiet|reflexivity]).
            destruct (if mt (gn ts n) <? t1 then becomeFollower (n_mem (gn ts n)) t1 (Some mcx) else (n_mem (gn ts n), [])) as [m1 e1] eqn:E1. cbn [snd] in Z.
            destruct (negb (mt (gn ts n) <? t1) && _); [injection N3 as <- <-; destruct Hin as [E|[]]; discriminate|].
            destruct (logUpToDateAsOurs _ _ _ _ _ _); injection N3 as <- <-; rewrite eff_msgs_app, Z in Hin; destruct Hin as [E|[]]; discriminate.
          + exfalso. destruct (tally_shape _ _ _ _ _ _ _ _ _ _ _ _ _ N3) as [(-> & ->)|[(_ & E)|(_ & _ & [(_ & -> & _)|(m1 & _ & _ & _ & E)])]].
            * destruct Hin. * rewrite E in Hin. destruct Hin. * destruct Hin.
            * destruct (bl_shape _ _ _ _ _ _ E) as (_ & _ & _ & _ & _ & Z & _). rewrite Z in Hin. apply in_map_iff in Hin.
              destruct Hin as (v & E' & _). discriminate.
          + injection N3 as N3. do 12 eexists. split; [reflexivity|]. split; [exact En|exact N3].
          + exfalso. assert (NoSend : eff_msgs effs = []); [|rewrite NoSend in Hin; destruct Hin].
            injection N3 as N3. clear Hin. unfold handleAck in N3. destruct (mt (gn ts n) <? tx1).
            { pose proof (bf_quiet (n_mem (gn ts n)) tx1 (Some mcx)) as (Z1 & Z2). destruct (becomeFollower (n_mem (gn ts n)) tx1 (Some mcx)) as [m1 e1].
              injection N3 as <- <-. rewrite eff_msgs_app. cbn [snd] in Z1. rewrite Z1. reflexivity. }
            assert (LA : forall m l nf r, leaderAdvanceCommitIndex cfg m l nf = r -> eff_msgs (snd r) = []).
            { clear. intros m l0 nf r <-. unfold leaderAdvanceCommitIndex. destruct (nth_error _ _) as [n0|]; [|reflexivity].
              destruct (_ || _); [reflexivity|]. pose proof (eff_msgs_cwwc (set_commit n0 (m_p m)) l0) as Z.
              destruct (commitWhatWeCan _ _); exact Z. }
            destruct (_ || _); [injection N3 as <- <-; reflexivity|].
            destruct rejx; [destruct gapx; [injection N3 as <- <-; reflexivity|]|];
              repeat match type of N3 with context [if ?b then _ else _] => destruct b end;
              try (injection N3 as <- <-; reflexivity); apply LA in N3; exact N3.
        - exfalso. unfold replicateBatch in N3. destruct (_ || _); [discriminate|].
          match type of N3 with Some (_, ?e) = Some _ => assert (E : effs = e) by congruence end. rewrite E in Hin.
          rewrite eff_msgs_app, eff_msgs_wals in Hin. cbn [app] in Hin.
          match type of Hin with In _ (eff_msgs (map (fun to => Send (@?h to)) ?l)) => rewrite (eff_msgs_sends nat h l) in Hin end.
          apply in_map_iff in Hin. destruct Hin as (v & E' & _). discriminate.
        - unfold leaderSend in N3. destruct (_ || _); [discriminate|]. injection N3 as <- <-. destruct Hin as [E|[]]; discriminate.
        - unfold leaderHeartbeat in N3. destruct (_ || _); [discriminate|]. injection N3 as <- <-. destruct Hin as [E|[]]; discriminate.
        - unfold leaderStepDown in N3. destruct (is_leader _); [|discriminate].
          pose proof (bf_quiet (n_mem (gn ts n)) (mt (gn ts n)) None) as (Z1 & _). destruct (becomeFollower (n_mem (gn ts n)) (mt (gn ts n)) None) as [m1 e1].
          injection N3 as <- <-. rewrite eff_msgs_app in Hin. cbn [snd] in Z1. rewrite Z1 in Hin. destruct Hin.
        - unfold peerGone in N3. injection N3 as <- <-. destruct Hin. }
      destruct AE as (k & b1 & b2 & from1 & to1 & T & lt & prev & pt & es & lci & mc1 & E1 & E2 & E3).
      destruct (hAE_msgs _ _ _ _ _ _ _ _ _ _ _ _ _ E3 (N4 _ Hin)) as (T1 & term & rej' & gap' & lcri' & last' & mc' & EA & ET).
      injection EA as -> -> -> -> -> -> -> -> -> ->. specialize (ET (eq_sym Est)). subst term.
      assert (Esrc : srcOf ev = k) by (destruct (fill_recv _ _ _ _ _ _ _ E1) as (x & ->); reflexivity).
      assert (Lk : k < length (t_log ts)) by (rewrite I1; apply nth_error_Some; congruence).
      destruct (nth_error (t_log ts) k) as [[u x]|] eqn:Ek; [|apply nth_error_None in Ek; lia].
      exists t, k, u, x. split.
      { rewrite N2, nth_error_app2 by lia. apply (map_nth_error (fun _ => (t, srcOf ev))) in Hj. rewrite I1, Hj, Esrc. reflexivity. }
      split; [rewrite N2; apply nth_old; auto|]. split; [specialize (I2 _ (nth_error_In _ _ Ek)); simpl in I2; lia|].
      split; [lia|]. intros _. cbn [fst].
      assert (ML : l_ae (lnext ts n ev' (c_clk c n t) m') = Some (c_clk c n t) /\ l_know (lnext ts n ev' (c_clk c n t) m') = true /\
                   forall m1, l_ae (lnext ts n ev' (c_clk c n t) m1) = Some (c_clk c n t)).
      { rewrite E1. unfold lnext. rewrite E2. destruct ((1 <=? T) && (mt (gn ts n) <=? T)) eqn:Eb; [auto|].
        apply andb_false_iff in Eb. destruct Eb as [Eb|Eb]; apply Nat.leb_gt in Eb; lia. }
      destruct ML as (M1 & M2 & M3).
      split; [|split].
      * exists (c_clk c n t). split; [|lia]. destruct cut as [q|].
        { destruct N7 as (_ & m1 & X). right. rewrite X. cbn [l_down]. apply M3. }
        { destruct N7 as (_ & X). left. rewrite X. cbn [l_know l_ae]. auto. }
      * destruct cut as [q|]; [apply N7|]. destruct N7 as (X & _). rewrite X. cbn [n_mem].
        destruct (hAE_role _ _ _ _ _ _ _ _ _ _ _ _ E3) as [Z|(_ & _ & Z)]; auto. specialize (Z T1). lia.
      * eapply alive_net; eauto.
        { intros y Hy _. destruct (hAE_msgs _ _ _ _ _ _ _ _ _ _ _ _ _ E3 (N4 _ Hy)) as (_ & a1 & a2 & a3 & a4 & a5 & a6 & -> & _). auto. }
        intros T' HT. split.
        { intros V. pose proof (voted_le ts gh n T' R V). lia. }
        { intros i V. pose proof (sent_le ts gh (n, i) T' R V) as Z. cbn [fst] in Z. lia. }
  - intros k q s Hq Hr. destruct (Nat.eq_dec k n) as [->|].
    2: { rewrite N6 in Hq by auto. rewrite N5 in Hr |- * by auto. destruct (I6 _ _ _ Hq Hr) as (r & A & B). exists r. auto. }
    destruct cut as [kk|]; [destruct N7 as (X & _); congruence|]. destruct N7 as (X & Y).
    rewrite X in Hr |- *. cbn [n_mem] in *. rewrite Y in Hq. cbn [l_full] in Hq.
    destruct (proj1 (handle_role _ _ _ _ _ _ _ N3) Hr) as [(Hr0 & ET)|(Hr0 & k & b1 & b2 & from & to & cc & g & ft & t1 & mc & E1 & E2)].
    + rewrite ET. apply full_next in Hq. destruct Hq as [Hq|(k & b1 & b2 & to & l & st & rej & gap & lc & li & mc & i & E1 & E2 & E3 & _ & E5 & E6)].
      * destruct (I6 _ _ _ Hq Hr0) as (r & A & B). exists r. auto.
      * assert (Est : st = mt (gn ts n)).
        { destruct G as (_ & _ & G & _). rewrite E1 in G. cbn in G. eapply G; eauto. }
        destruct (I5 _ _ _ _ _ _ _ _ _ _ _ E2 Est) as (r & k' & u & x & A1 & A2 & A3 & A4).
        destruct (I4 _ _ _ _ E5) as (u' & x' & B1 & B2).
        rewrite (nth_error_nth _ _ _ A1) in E6. cbn [snd] in E6. subst k'. rewrite A2 in B1. injection B1 as <- <-.
        exists r. split; [|auto]. pose proof (mono n u r A3). lia.
    + apply full_next in Hq. destruct Hq as [Hq|(k0 & b10 & b20 & to0 & l & st & rej & gap & lc & li & mc0 & i & F1 & F2 & F3 & F4 & _)].
      * rewrite I7 in Hq by auto. destruct Hq.
      * congruence.
  - intros k Hr. destruct (Nat.eq_dec k n) as [->|].
    2: { rewrite N6 by auto. rewrite N5 in Hr by auto. auto. }
    destruct cut as [kk|]; [destruct N7 as (X & _); congruence|]. destruct N7 as (X & Y).
    rewrite X in Hr. cbn [n_mem] in *. rewrite Y. cbn [l_full].
    destruct (proj2 (handle_role _ _ _ _ _ _ _ N3) Hr) as [E|Hr0]; [rewrite E; reflexivity|].
    destruct (l_full (lnext ts n ev' (c_clk c n t) m')) as [|[q s] r] eqn:El; auto. exfalso.
    assert (Hq : In (q, s) (l_full (lnext ts n ev' (c_clk c n t) m'))) by (rewrite El; left; auto).
    apply full_next in Hq. destruct Hq as [Hq|(k0 & b10 & b20 & to0 & l & st & rej & gap & lc & li & mc0 & i & F1 & F2 & F3 & F4 & _)].
    + rewrite I7 in Hq by auto. destruct Hq.
    + congruence.
Qed.

Lemma treach_inv : forall ta tb, treaches c (keeps c d) ta tb -> forall gh,
  RInv cfg (g_node (t_g ta)) (gnet ta) gh -> TI ta ->
  exists gh', gmono gh gh' /\ RInv cfg (g_node (t_g tb)) (gnet tb) gh' /\ TI tb /\
    forall x, just cfg (g_node (t_g ta)) gh x -> just cfg (g_node (t_g tb)) gh' x.
Proof.
  induction 1 as [ts|t1 t2 t3 t late n ev cut H IH K G S]; intros gh R I.
  - exists gh. split; [apply gmono_refl|]. auto.
  - destruct (IH gh R I) as (gh1 & M1 & R1 & I1 & J1).
    destruct (tstep_shape _ _ _ _ _ _ _ S) as (_ & _ & S3 & _).
    destruct (step_RInv cfg size _ _ _ _ _ gh1 G S3 R1) as (gh2 & M2 & R2 & J2).
    exists gh2. split; [eapply gmono_trans; eauto|]. split; auto. split; [eapply TI_step; eauto|]. auto.
Qed.

Hypothesis window : forall n, (c_minElec c n <= W)%Z.
Hypothesis eps0 : (0 <= eps)%Z.

(** A leader [L] of term [T], with promises for [T] from enough members, all
    young enough on its own clock: there is no newer leader. *)
Lemma no_newer_at : forall ts gh L S nf, RInv cfg (g_node (t_g ts)) (gnet ts) gh ->
  (d + eps <= 2 * c_heartbeat c L)%Z -> In L cfg -> NoDup (L :: S) -> incl S cfg -> need c nf <= length S ->
  (forall v, In v S -> exists r, Prom ts v (mt (gn ts L)) r /\
     (c_clk c L (t_now ts) - c_clk c L r < windowOf c L v + d)%Z) ->
  forall T p, ld gh T = Some p -> T <= mt (gn ts L).
Proof.
  intros ts gh L S nf R HB HL ND INC HS HP T p Hp.
  destruct (Nat.le_gt_cases T (mt (gn ts L))) as [|GT]; auto. exfalso.
  pose proof R as (RL & RC & EV & _).
  destruct (EV _ _ Hp) as (Hg & Hs & Q & HQ & HV).
  assert (HM : majority cfg (L :: S)).
  { split; auto. split.
    - intros v [<-|Hv]; auto.
    - cbn [length]. unfold need, quorum in HS. clear - HS size. destruct nf; cbv iota in HS; [lia|].
      pose proof (Nat.div_mod (length cfg) 2 ltac:(lia)).
      pose proof (Nat.mod_upper_bound (length cfg) 2 ltac:(lia)). lia. }
  destruct (majorities_meet _ _ _ HQ HM) as (v & Hv1 & Hv2).
  destruct Hv2 as [<-|Hv2].
  - destruct (HV _ Hv1) as [->|V].
    + pose proof (sent_le ts gh p T R Hs). lia.
    + pose proof (voted_le ts gh L T R V). lia.
  - destruct (HP v Hv2) as (r & (Hrn & HA) & Hw). unfold windowOf in Hw.
    pose proof (window v) as WQ.
    pose proof (proj2 CK v L r (t_now ts) Hrn ltac:(lia)) as C2.
    destruct (HA ltac:(lia)) as (_ & _ & Z). destruct (Z T GT) as (Z1 & Z2).
    destruct (HV _ Hv1) as [E|V]; [|auto]. destruct p as [a b]. cbn [fst] in E. subst a. apply (Z2 b Hs).
Qed.

(** With enough peers counted there is no newer leader. *)
Lemma no_newer : forall ts gh L nf, RInv cfg (g_node (t_g ts)) (gnet ts) gh -> TI ts ->
  (d + eps <= 2 * c_heartbeat c L)%Z -> canServe c ts L nf = true -> countsMembers c ts L ->
  forall T p, ld gh T = Some p -> T <= mt (gn ts L).
Proof.
  intros ts gh L nf R I HB HS (ND & INC).
  unfold canServe in HS. apply andb_true_iff in HS. destruct HS as (HS & H3). apply andb_true_iff in HS. destruct HS as (H1 & H2).
  apply Nat.leb_le in H3. assert (Hr : m_role (n_mem (gn ts L)) = Leader) by (destruct (m_role (n_mem (gn ts L))); discriminate || auto).
  apply (no_newer_at ts gh L (map (fun x => fst (fst x)) (counted c ts L)) nf R HB); auto.
  - apply (nc_self _ _ _ _ _ _ (proj1 (proj1 (proj2 R)) L) Hr).
  - rewrite map_length. exact H3.
  - intros v Hv. apply in_map_iff in Hv. destruct Hv as ((q & s) & <- & Hi). cbn [fst] in *. unfold counted in Hi. apply filter_In in Hi.
    destruct Hi as (Hi & Hw). apply Z.ltb_lt in Hw. unfold clk in Hw. cbn [fst snd] in Hw.
    destruct (ti_full _ I _ _ _ Hi Hr) as (r & Hsr & HP). exists r. split; auto. lia.
Qed.

Lemma Prom_reach : forall ta tb, treaches c (keeps c d) ta tb -> forall f T r, Prom ta f T r -> Prom tb f T r.
Proof. induction 1; intros; auto. eapply Prom_step; eauto. Qed.

Lemma minBy_le : forall h l z, (minBy l h z <= z)%Z /\ forall x, In x l -> (minBy l h z <= h x)%Z.
Proof.
  intros h. unfold minBy. induction l as [|y l IH]; simpl; intros z; [split; [lia|tauto]|].
  destruct (IH (Z.min z (h y))) as (A & B). split; [lia|]. intros x [<-|Hx]; [lia|auto].
Qed.

(** ... and none until the time returned, as long as the leader keeps its term. *)
Lemma no_newer_until : forall ta tb gh L nf hour sel, treaches c (keeps c d) ta tb -> TI ta ->
  RInv cfg (g_node (t_g ta)) (gnet ta) gh ->
  (d + eps <= 2 * c_heartbeat c L)%Z -> canServe c ta L nf = true ->
  NoDup (L :: map (fun x => fst (fst x)) sel) -> incl (map (fun x => fst (fst x)) sel) cfg ->
  incl sel (counted c ta L) -> length sel = need c nf ->
  mt (gn tb L) = mt (gn ta L) -> (c_clk c L (t_now tb) < untilTm c ta L hour sel)%Z ->
  forall p T, hasLed (t_g tb) p T -> T <= mt (gn ta L).
Proof.
  intros ta tb gh L nf hour sel RE I R HB HS ND INC Hsel Hlen HT HU p T Hl.
  destruct (treach_inv _ _ RE gh R I) as (gh' & _ & R' & I' & _).
  assert (Hp : ld gh' T = Some p) by (eapply led_ld; [apply R'|exact Hl]).
  unfold canServe in HS. apply andb_true_iff in HS. destruct HS as (HS & _). apply andb_true_iff in HS. destruct HS as (H1 & _).
  assert (Hr : m_role (n_mem (gn ta L)) = Leader) by (destruct (m_role (n_mem (gn ta L))); discriminate || auto).
  rewrite <- HT. apply (no_newer_at tb gh' L (map (fun x => fst (fst x)) sel) nf R' HB) with (p := p); auto.
  - apply (nc_self _ _ _ _ _ _ (proj1 (proj1 (proj2 R)) L) Hr).
  - rewrite map_length. lia.
  - intros v Hv. apply in_map_iff in Hv. destruct Hv as ((q & s) & <- & Hi). cbn [fst] in *.
    pose proof (Hsel _ Hi) as Hc. unfold counted in Hc. apply filter_In in Hc. destruct Hc as (Hc & _).
    destruct (ti_full _ I _ _ _ Hc Hr) as (r & Hsr & HP). exists r. rewrite HT. split; [eapply Prom_reach; eauto|].
    unfold untilTm in HU. pose proof (proj2 (minBy_le snd sel (clk c L (t_now ta))) _ Hi) as M1.
    pose proof (proj2 (minBy_le (fun x => windowOf c L (fst (fst x))) sel hour) _ Hi) as M2. cbn [fst snd] in M1, M2. lia.
Qed.

(** What was committed anywhere before is applied by a leader that may serve. *)
Lemma serves_all : forall ts gh L nf x, RInv cfg (g_node (t_g ts)) (gnet ts) gh -> TI ts ->
  (d + eps <= 2 * c_heartbeat c L)%Z -> canServe c ts L nf = true -> countsMembers c ts L ->
  just cfg (g_node (t_g ts)) gh x -> x <= length (p_applied (m_p (n_mem (gn ts L)))).
Proof.
  intros ts gh L nf x R I HB HS HM [->|(T0 & i0 & A & B & C)]; [lia|].
  pose proof (no_newer ts gh L nf R I HB HS HM) as NN.
  unfold canServe in HS. apply andb_true_iff in HS. destruct HS as (HS & _). apply andb_true_iff in HS. destruct HS as (H1 & H2).
  apply Nat.leb_le in H2. assert (Hr : m_role (n_mem (gn ts L)) = Leader) by (destruct (m_role (n_mem (gn ts L))); discriminate || auto).
  destruct (ti_LI _ I L Hr) as (L1 & L2 & L3). rewrite (L3 H2).
  pose proof R as ((HN & HG & HMs) & (HC & GC & _) & EV & _).
  destruct (nl_lead _ _ _ _ (HN L) Hr) as (D1 & D2 & D3 & D4).
  assert (Hl : exists p, ld gh T0 = Some p).
  { destruct B as (B1 & _). destruct (ld gh T0) as [p|] eqn:E; eauto. exfalso.
    destruct (tl gh T0) as [|e r] eqn:Et; [simpl in B1; lia|]. apply (proj1 (gl_tl _ _ HG T0)); [rewrite Et; discriminate|auto]. }
  destruct Hl as (p & Hp). specialize (NN _ _ Hp).
  destruct (Nat.eq_dec T0 (mt (gn ts L))) as [->|NE]; [apply (C L Hr eq_refl)|].
  assert (P : pre i0 (tl gh (mt (gn ts L))) (tl gh T0)) by (eapply chosen_later; eauto; congruence).
  rewrite D3 in P. destruct B as (B1 & B2 & _).
  rewrite <- (termAt_pre _ _ _ _ P (le_n _)) in B2.
  destruct (termAt_ex (nlog (gn ts L)) i0) as (e & He & Hte); [split; [lia|apply P]|].
  destruct (Nat.lt_ge_cases i0 (m_noop (n_mem (gn ts L)))) as [|GE]; [lia|].
  exfalso. apply NE. assert (X : e_term e = mt (gn ts L)) by (apply (L2 (i0 - 1) e); auto; lia). lia.
Qed.
End lp.
