(** C20: the hybrid logical clock. *)
From Coq Require Import ZArith List Bool Lia Arith.
From Verif Require Import Base Hlc_Model Hlc_Spec.
Import ListNotations.
Local Open Scope Z_scope.

(** * Bit arithmetic *)
Lemma LC_eq : forall h, LC h = 65536 * (h / 65536).
Proof.
  intros h. unfold LC, getLC. change (-65536) with (Z.lnot (Z.ones 16)).
  rewrite <- Z.ldiff_land, Z.ldiff_ones_r by lia. rewrite Z.shiftl_mul_pow2, Z.shiftr_div_pow2 by lia.
  change (2 ^ 16) with 65536. lia.
Qed.
Lemma Count_eq : forall h, Count h = h mod 65536.
Proof.
  intros h. unfold Count, getCount. change 65535 with (Z.ones 16). rewrite Z.land_ones by lia. reflexivity.
Qed.
Lemma LC_Count : forall h, h = LC h + Count h /\ 0 <= Count h < 65536.
Proof.
  intros h. rewrite LC_eq, Count_eq. pose proof (Z.div_mod h 65536 ltac:(lia)). pose proof (Z.mod_pos_bound h 65536 ltac:(lia)). lia.
Qed.
Lemma LC_mult : forall h, exists k, LC h = 65536 * k.
Proof. intros h. exists (h / 65536). apply LC_eq. Qed.
Lemma wrap64_id : forall x, - 2 ^ 63 <= x < 2 ^ 63 -> wrap64 x = x.
Proof. intros x H. unfold wrap64. rewrite Z.mod_small; lia. Qed.
Lemma PT_bounds : forall pt, - 2 ^ 62 <= pt < 2 ^ 62 ->
  pt <= PhysicalTime48 pt < pt + 65536 /\ exists k, PhysicalTime48 pt = 65536 * k.
Proof.
  intros pt H. unfold PhysicalTime48, getCount. rewrite wrap64_id by lia.
  change (Z.land (pt + 65535) getLC) with (LC (pt + 65535)). split; [|apply LC_mult].
  destruct (LC_Count (pt + 65535)). lia.
Qed.

(** * One round of the loops *)
Definition B : Z := 2 ^ 62 + 2 ^ 61.
Lemma localValue_spec : forall j pt, - B <= j < B -> - 2 ^ 62 <= pt < 2 ^ 62 ->
  let r := localValue j pt in
  j < r /\ PhysicalTime48 pt <= r /\ (r <= j + 1 \/ r = PhysicalTime48 pt) /\
  r = wrap64 r.
Proof.
  intros j pt Hj Hp. cbv zeta. unfold localValue. destruct (PT_bounds pt Hp) as (P1 & k & P2).
  destruct (LC_Count j) as (L1 & L2). destruct (LC_mult j) as (q & Lq). unfold B in *.
  destruct (Z.ltb_spec (LC j) (PhysicalTime48 pt)).
  - destruct (Z.eqb_spec (PhysicalTime48 pt) (LC j)); [lia|]. rewrite wrap64_id by lia.
    repeat split; try lia. rewrite wrap64_id; lia.
  - rewrite Z.eqb_refl. rewrite wrap64_id by lia. repeat split; try lia. rewrite wrap64_id; lia.
Qed.
Lemma recvValue_spec : forall j m pt, - B <= j < B -> - B <= m < B -> - 2 ^ 62 <= pt < 2 ^ 62 ->
  let r := recvValue j m pt in
  j < r /\ m < r /\ PhysicalTime48 pt <= r /\ (r <= j + 1 \/ r <= m + 1 \/ r = PhysicalTime48 pt) /\
  r = wrap64 r.
Proof.
  intros j m pt Hj Hm Hp. cbv zeta. unfold recvValue. destruct (PT_bounds pt Hp) as (P1 & k & P2).
  destruct (LC_Count j) as (L1 & L2). destruct (LC_mult j) as (q & Lq).
  destruct (LC_Count m) as (M1 & M2). destruct (LC_mult m) as (w & Mw). unfold B in *.
  remember (LC j) as a. remember (LC m) as b. remember (Count j) as cj. remember (Count m) as cm.
  remember (PhysicalTime48 pt) as p.
  destruct (Z.ltb_spec a p); match goal with |- context [?x <? ?y] => destruct (Z.ltb_spec x y) end;
  repeat match goal with |- context [?x =? ?y] => destruct (Z.eqb_spec x y); cbn [andb] end;
  try lia; rewrite !wrap64_id by lia; repeat split; try lia; rewrite wrap64_id; lia.
Qed.

(** * The system *)
(** The largest (rounded) wall-clock reading of the history; 0, where the clocks
    start, counts too. *)
Fixpoint maxPT (h : list event) : Z :=
  match h with [] => 0 | e :: r => Z.max (PhysicalTime48 (ev_pt e)) (maxPT r) end.
Lemma maxPT_app : forall h e, maxPT (h ++ [e]) = Z.max (maxPT h) (PhysicalTime48 (ev_pt e)).
Proof. induction h as [|x h IH]; intros e; simpl; [lia|rewrite IH; lia]. Qed.
Lemma maxPT_bound : forall h, saneClocks h -> 0 <= maxPT h < 2 ^ 62 + 65536.
Proof.
  induction h as [|e h IH]; intros S; simpl; [lia|].
  assert (saneClocks h) by (intros x Hx; apply S; right; auto).
  specialize (IH H). destruct (PT_bounds (ev_pt e)) as (P & _); [apply S; left; auto|]. specialize (S e (or_introl eq_refl)). lia.
Qed.

(** Everything a node's clock has been through: strictly increasing, below its
    present value; every value is bounded by the clock readings. *)
Record inv (s : sys) : Prop := mkInv {
  iv_clock : forall n, 0 <= clock s n <= maxPT (hist s) + Z.of_nat (length (hist s));
  iv_last : forall i e, nth_error (hist s) i = Some e -> 0 < ev_ts e <= clock s (ev_node e);
  iv_mono : forall i j a b, nth_error (hist s) i = Some a -> nth_error (hist s) j = Some b ->
    ev_node a = ev_node b -> (i < j)%nat -> ev_ts a < ev_ts b;
  iv_recv : forall j b i, nth_error (hist s) j = Some b -> ev_op b = Recv i ->
    (i < j)%nat /\ ts_of (hist s) i < ev_ts b;
  iv_th : forall t i, (thread s t = Loop (Recv i) \/ (exists j, thread s t = Loaded (Recv i) j) \/
    (exists j pt, thread s t = Ready (Recv i) j pt)) -> (i < length (hist s))%nat;
  iv_pt : forall i e, nth_error (hist s) i = Some e -> PhysicalTime48 (ev_pt e) <= ev_ts e
}.
Lemma nth_snoc : forall A (l : list A) x i y, nth_error (l ++ [x]) i = Some y ->
  (i < length l)%nat /\ nth_error l i = Some y \/ i = length l /\ y = x.
Proof.
  intros A l x i y H. destruct (lt_dec i (length l)) as [L|L].
  - rewrite nth_error_app1 in H by auto. auto.
  - rewrite nth_error_app2 in H by lia. destruct (i - length l)%nat as [|k] eqn:E; simpl in H.
    + right. split; [lia|congruence].
    + destruct k; discriminate.
Qed.
Lemma ts_of_snoc : forall h e i, (i < length h)%nat -> ts_of (h ++ [e]) i = ts_of h i.
Proof. intros h e i L. unfold ts_of. rewrite nth_error_app1 by auto. auto. Qed.
Lemma sane_app : forall h e, saneClocks (h ++ [e]) -> saneClocks h /\ - 2 ^ 62 <= ev_pt e < 2 ^ 62.
Proof.
  intros h e S. split.
  - intros x Hx. apply S. apply in_or_app; auto.
  - apply S. apply in_or_app. right; left; auto.
Qed.

Lemma step_hist : forall no s s', step no s s' -> exists l, hist s' = hist s ++ l.
Proof. intros no s s' H. destruct H; simpl; try (exists []; rewrite app_nil_r; auto; fail). eexists; eauto. Qed.
Lemma steps_hist : forall no s s', steps no s s' -> exists l, hist s' = hist s ++ l.
Proof.
  intros no s s' H. induction H as [|s1 s2 s3 H [l IH] S]; [exists []; rewrite app_nil_r; auto|].
  destruct (step_hist _ _ _ S) as [l' E]. exists (l ++ l'). rewrite E, IH, app_assoc. auto.
Qed.

Lemma step_inv : forall no s s', inv s -> step no s s' ->
  saneClocks (hist s') -> Z.of_nat (length (hist s')) <= 2 ^ 61 - 2 ^ 17 -> inv s'.
Proof.
  intros no s s' I S SC LN.
  assert (Quiet : forall c th h t x, inv (mkSys c th h) ->
    (forall i, (x = Loop (Recv i) \/ (exists j, x = Loaded (Recv i) j) \/ (exists j pt, x = Ready (Recv i) j pt)) -> (i < length h)%nat) ->
    inv (mkSys c (upd th t x) h)).
  { intros c th h t x [] Hx. constructor; simpl in *; auto.
    intros t' i. unfold upd. destruct (Nat.eqb t' t); auto. intros Hq. eapply iv_th0; eauto. }
  destruct S as [c th h t o Ht Ho|c th h t o Ht|c th h t o j pt Ht|c th h t o j pt Ht Hc|c th h t o j pt Ht Hc r].
  - apply Quiet; auto. intros i [H|[(j & H)|(j & pt & H)]]; try discriminate. injection H as ->. auto.
  - apply Quiet; auto. intros i [H|[(j & H)|(j & pt & H)]]; try discriminate. injection H as -> _.
    apply (iv_th _ I t i). auto.
  - apply Quiet; auto. intros i [H|[(j' & H)|(j' & pt' & H)]]; try discriminate. injection H as -> _ _.
    apply (iv_th _ I t i). eauto.
  - apply Quiet; auto. intros i [H|[(j' & H)|(j' & pt' & H)]]; try discriminate. injection H as ->.
    apply (iv_th _ I t i). eauto.
  - simpl in SC, LN. destruct (sane_app _ _ SC) as (SC' & Hp). simpl in Hp.
    rewrite app_length in LN. simpl in LN.
    pose proof (maxPT_bound _ SC') as HM.
    destruct I as [I1 I2 I3 I4 I5 I6]. simpl in *.
    pose proof (I1 (no t)) as Ic. rewrite Hc in Ic.
    assert (Hi : forall i, o = Recv i -> (i < length h)%nat).
    { intros i ->. apply (I5 t i). eauto. }
    assert (Hts : forall i, (i < length h)%nat -> 0 < ts_of h i <= maxPT h + Z.of_nat (length h)).
    { intros i Li. unfold ts_of. destruct (nth_error h i) eqn:E; [|apply nth_error_None in E; lia].
      pose proof (I2 i _ E). pose proof (I1 (ev_node e)). lia. }
    assert (R : j < r /\ PhysicalTime48 pt <= r /\ r <= Z.max (maxPT h) (PhysicalTime48 pt) + Z.of_nat (length h) + 1 /\
                forall i, o = Recv i -> ts_of h i < r).
    { unfold r, value. destruct o as [|i].
      - destruct (localValue_spec j pt) as (A & A2 & A3 & _); [unfold B; lia|auto|].
        repeat split; auto; [lia|intros; discriminate].
      - pose proof (Hts i (Hi i eq_refl)) as Hm.
        destruct (recvValue_spec j (ts_of h i) pt) as (A & A1 & A2 & A3 & _); [unfold B; lia|unfold B; lia|auto|].
        repeat split; auto; [lia|]. intros i' E; injection E as <-; auto. }
    destruct R as (R1 & R2 & R3 & R4).
    assert (Hold : forall i e, nth_error h i = Some e -> 0 < ev_ts e <= upd c (no t) r (ev_node e)).
    { intros i e E. pose proof (I2 i e E) as X. unfold upd. destruct (Nat.eqb_spec (ev_node e) (no t)) as [En|]; auto.
      rewrite En in X. lia. }
    constructor; simpl.
    + intros n. rewrite maxPT_app, app_length. simpl. unfold upd. destruct (Nat.eqb_spec n (no t)) as [->|]; [lia|].
      specialize (I1 n). lia.
    + intros i e E. destruct (nth_snoc _ _ _ _ _ E) as [(L & E')|(-> & ->)]; [eapply Hold; eauto|].
      simpl. unfold upd. rewrite Nat.eqb_refl. lia.
    + intros i j' a b Ea Eb En L.
      destruct (nth_snoc _ _ _ _ _ Eb) as [(Lb & Eb')|(-> & ->)].
      * rewrite nth_error_app1 in Ea by lia. eapply I3; eauto.
      * rewrite nth_error_app1 in Ea by lia. simpl in *. pose proof (I2 _ _ Ea) as X. rewrite En in X. lia.
    + intros j' b i Eb Eo. destruct (nth_snoc _ _ _ _ _ Eb) as [(Lb & Eb')|(-> & ->)].
      * destruct (I4 _ _ _ Eb' Eo) as (X & Y). rewrite ts_of_snoc by lia. auto.
      * simpl in *. rewrite ts_of_snoc by auto. auto.
    + intros t' i. rewrite app_length. simpl. unfold upd. destruct (Nat.eqb t' t).
      * intros [H|[(j' & H)|(j' & pt' & H)]]; discriminate.
      * intros H. specialize (I5 t' i H). lia.
    + intros i e E. destruct (nth_snoc _ _ _ _ _ E) as [(L & E')|(-> & ->)]; [eauto|auto].
Qed.

Lemma inv0 : inv sys0.
Proof.
  constructor; simpl; intros; try (destruct i; discriminate); try lia.
  - destruct j; discriminate.
  - destruct H as [H|[(? & H)|(? & ? & H)]]; discriminate.
Qed.
Lemma steps_inv : forall no s, steps no sys0 s ->
  saneClocks (hist s) -> Z.of_nat (length (hist s)) <= 2 ^ 61 - 2 ^ 17 -> inv s.
Proof.
  intros no s H. remember sys0 as s0 eqn:E. induction H as [|s1 s2 s3 H IH S]; intros SC L; subst.
  - apply inv0.
  - destruct (step_hist _ _ _ S) as (l & El). eapply step_inv; eauto. apply IH; auto.
    + intros e He. apply SC. rewrite El. apply in_or_app; auto.
    + rewrite El, app_length in L. lia.
Qed.

(** * C20 *)
(** Timestamps order all happens-before related events, over any number of nodes
    and goroutines, whatever the wall clocks read (they may go backwards), and
    whatever the interleaving of loads, clock readings and compare-and-swaps. *)
Theorem C20_happens_before : forall no s i j a b, steps no sys0 s ->
  saneClocks (hist s) -> Z.of_nat (length (hist s)) <= 2 ^ 61 - 2 ^ 17 ->
  nth_error (hist s) i = Some a -> nth_error (hist s) j = Some b ->
  happensBefore (hist s) i j -> ev_ts a < ev_ts b.
Proof.
  intros no s i j a b R SC L Ha Hb H. pose proof (steps_inv _ _ R SC L) as I.
  revert a b Ha Hb. induction H as [i j x y Hx Hy En Lt|i j y Hy Eo Lt|i j k H1 IH1 H2 IH2]; intros a b Ha Hb.
  - eapply (iv_mono _ I); [exact Ha|exact Hb| |exact Lt]. congruence.
  - destruct (iv_recv _ I _ _ _ Hy Eo) as (_ & X). unfold ts_of in X. rewrite Ha in X. congruence.
  - assert (Hm : exists m, nth_error (hist s) j = Some m).
    { clear - H1. induction H1; eauto. }
    destruct Hm as (m & Hm). specialize (IH1 _ _ Ha Hm). specialize (IH2 _ _ Hm Hb). lia.
Qed.
Print Assumptions C20_happens_before.

(** In particular one clock never repeats or goes back, under concurrent use. *)
Corollary C20_clock_strictly_monotone : forall no s i j a b, steps no sys0 s ->
  saneClocks (hist s) -> Z.of_nat (length (hist s)) <= 2 ^ 61 - 2 ^ 17 ->
  nth_error (hist s) i = Some a -> nth_error (hist s) j = Some b ->
  ev_node a = ev_node b -> (i < j)%nat -> ev_ts a < ev_ts b.
Proof. intros. eapply C20_happens_before; eauto. eapply hb_node; eauto. Qed.
Print Assumptions C20_clock_strictly_monotone.
Corollary C20_receive_after_send : forall no s i j a b, steps no sys0 s ->
  saneClocks (hist s) -> Z.of_nat (length (hist s)) <= 2 ^ 61 - 2 ^ 17 ->
  nth_error (hist s) i = Some a -> nth_error (hist s) j = Some b -> ev_op b = Recv i -> ev_ts a < ev_ts b.
Proof.
  intros no s i j a b R SC L Ha Hb Eo. eapply C20_happens_before; eauto. eapply hb_msg; eauto.
  apply (iv_recv _ (steps_inv _ _ R SC L) _ _ _ Hb Eo).
Qed.
Print Assumptions C20_receive_after_send.

(** A timestamp is never behind the wall clock read for it. *)
Theorem C20_not_behind_wall_clock : forall no s i e, steps no sys0 s ->
  saneClocks (hist s) -> Z.of_nat (length (hist s)) <= 2 ^ 61 - 2 ^ 17 ->
  nth_error (hist s) i = Some e -> ev_pt e <= ev_ts e.
Proof.
  intros no s i e R SC L E. pose proof (iv_pt _ (steps_inv _ _ R SC L) _ _ E).
  destruct (PT_bounds (ev_pt e)) as (P & _); [apply SC; eapply nth_error_In; eauto|]. lia.
Qed.
Print Assumptions C20_not_behind_wall_clock.

(** * How far ahead of the wall clocks *)
(** The claim "the physical part never runs ahead of the largest physical time
    seen" holds as long as no counter overflows ... *)
Definition noOverflow (h : list event) : Prop := forall e, In e h -> Count (ev_ts e) < getCount.
Lemma LC_le : forall x y, x <= y -> LC x <= LC y.
Proof. intros x y H. rewrite !LC_eq. pose proof (Z.div_le_mono x y 65536 ltac:(lia) H). lia. Qed.
Lemma LC_small : forall q c, 0 <= c < 65536 -> LC (65536 * q + c) = 65536 * q.
Proof. intros q c H. rewrite LC_eq. replace (65536 * q + c) with (c + q * 65536) by lia. rewrite Z.div_add, Z.div_small by lia. lia. Qed.
Lemma step_phys : forall j m pt M, - B <= j < B -> - B <= m < B -> - 2 ^ 62 <= pt < 2 ^ 62 ->
  LC j <= M -> LC m <= M -> PhysicalTime48 pt <= M ->
  Count j < getCount -> Count m < getCount ->
  LC (localValue j pt) <= M /\ LC (recvValue j m pt) <= M.
Proof.
  intros j m pt M Hj Hm Hp Lj Lm Lp Cj Cm.
  destruct (PT_bounds pt Hp) as (P1 & k & P2).
  destruct (LC_Count j) as (L1 & L2). destruct (LC_mult j) as (q & Lq).
  destruct (LC_Count m) as (M1 & M2). destruct (LC_mult m) as (w & Mw). unfold B, getCount in *.
  unfold localValue, recvValue.
  remember (LC j) as a. remember (LC m) as b. remember (Count j) as cj. remember (Count m) as cm.
  remember (PhysicalTime48 pt) as p.
  assert (S : forall x c, (x = a \/ x = b \/ x = p) -> 0 <= c < 65536 -> LC (x + c) = x).
  { intros x c Hx Hc; destruct Hx as [Hx|[Hx|Hx]]; rewrite Hx; [rewrite Lq|rewrite Mw|rewrite P2]; apply LC_small; auto. }
  split.
  - destruct (Z.ltb_spec a p); repeat match goal with |- context [?x =? ?y] => destruct (Z.eqb_spec x y); cbn [andb] end;
    try lia; rewrite wrap64_id by lia; rewrite S; auto; lia.
  - destruct (Z.ltb_spec a p); match goal with |- context [?x <? ?y] => destruct (Z.ltb_spec x y) end;
    repeat match goal with |- context [?x =? ?y] => destruct (Z.eqb_spec x y); cbn [andb] end;
    try lia; rewrite wrap64_id by lia; rewrite S; auto; lia.
Qed.
(** A clock value is 0 or a timestamp of the history. *)
Lemma clock_src : forall no s, steps no sys0 s -> forall n, clock s n = 0 \/ exists e, In e (hist s) /\ ev_ts e = clock s n.
Proof.
  intros no s H. remember sys0 as s0 eqn:E. induction H as [|s1 s2 s3 H IH S]; intros n; subst; [auto|].
  specialize (IH eq_refl). destruct S; simpl in *; auto.
  unfold upd. destruct (Nat.eqb n (no t)).
  - right. eexists. split; [apply in_or_app; right; left; reflexivity|]. reflexivity.
  - destruct (IH n) as [Z0|(e & A & D)]; auto. right. exists e. split; auto. apply in_or_app; auto.
Qed.
Theorem C20_physical_part_partial : forall no s i e, steps no sys0 s ->
  saneClocks (hist s) -> Z.of_nat (length (hist s)) <= 2 ^ 61 - 2 ^ 17 -> noOverflow (hist s) ->
  nth_error (hist s) i = Some e -> LC (ev_ts e) <= maxPT (hist s).
Proof.
  intros no s i e R SC LN NO E. apply nth_error_In in E. revert e E.
  remember sys0 as s0 eqn:Es. revert SC LN NO.
  induction R as [|s1 s2 s3 R IH S]; intros SC LN NO e E; subst; [contradiction|].
  destruct (step_hist _ _ _ S) as (l & El).
  assert (SC2 : saneClocks (hist s2)) by (intros x Hx; apply SC; rewrite El; apply in_or_app; auto).
  assert (LN2 : Z.of_nat (length (hist s2)) <= 2 ^ 61 - 2 ^ 17) by (rewrite El, app_length in LN; lia).
  assert (NO2 : noOverflow (hist s2)) by (intros x Hx; apply NO; rewrite El; apply in_or_app; auto).
  specialize (IH eq_refl SC2 LN2 NO2).
  pose proof (steps_inv _ _ R SC2 LN2) as I.
  pose proof (clock_src _ _ R) as CS.
  destruct S as [c th h t o Ht Ho|c th h t o Ht|c th h t o j pt Ht|c th h t o j pt Ht Hc|c th h t o j pt Ht Hc r];
    simpl in *; auto.
  rewrite maxPT_app. simpl. apply in_app_or in E. destruct E as [E|[<-|[]]]; [specialize (IH _ E); lia|]. simpl.
  destruct (sane_app _ _ SC) as (_ & Hp). simpl in Hp.
  pose proof (maxPT_bound _ SC2) as HM. pose proof (iv_clock _ I (no t)) as IC. simpl in IC. rewrite Hc in IC.
  assert (Hj : LC j <= maxPT h /\ Count j < getCount).
  { destruct (CS (no t)) as [Z0|(x & Hx & Hy)].
    - rewrite Hc in Z0. subst j. rewrite Z0, LC_eq, Count_eq. unfold getCount. cbn. lia.
    - rewrite Hc in Hy. rewrite <- Hy. split; [apply IH; auto|apply NO2; auto]. }
  assert (Hsrc : forall k, o = Recv k -> - B <= ts_of h k < B /\ LC (ts_of h k) <= maxPT h /\ Count (ts_of h k) < getCount).
  { intros k ->. pose proof (iv_th _ I t k ltac:(eauto)) as Lk. simpl in Lk.
    unfold ts_of. destruct (nth_error h k) as [x|] eqn:Ex; [|apply nth_error_None in Ex; lia].
    pose proof (iv_last _ I _ _ Ex) as X1. pose proof (iv_clock _ I (ev_node x)) as X2. simpl in X1, X2.
    apply nth_error_In in Ex. split; [unfold B; lia|]. split; [apply IH; auto|apply NO2; auto]. }
  unfold r, value. destruct o as [|k].
  - apply (step_phys j j pt); unfold B; try lia.
  - destruct (Hsrc k eq_refl) as (S1 & S2 & S3). apply (step_phys j (ts_of h k) pt); unfold B in *; try lia.
Qed.
Print Assumptions C20_physical_part_partial.

(** ... and in general a timestamp exceeds it by at most the number of events. *)
Theorem C20_drift_bound : forall no s i e, steps no sys0 s ->
  saneClocks (hist s) -> Z.of_nat (length (hist s)) <= 2 ^ 61 - 2 ^ 17 ->
  nth_error (hist s) i = Some e -> ev_ts e <= maxPT (hist s) + Z.of_nat (length (hist s)).
Proof.
  intros no s i e R SC L E. pose proof (steps_inv _ _ R SC L) as I.
  pose proof (iv_last _ I _ _ E). pose proof (iv_clock _ I (ev_node e)). lia.
Qed.
Print Assumptions C20_drift_bound.

(** ** The claim in full is false: 65536 local events within one clock tick. *)
Lemma nth_error_last : forall A (l : list A) x, nth_error (l ++ [x]) (length l) = Some x.
Proof. induction l; simpl; auto. Qed.
Fixpoint iterLocal (k : nat) (j pt : Z) : Z := match k with O => j | S k' => localValue (iterLocal k' j pt) pt end.
Lemma run_local : forall pt k, exists s, steps (fun _ => O) sys0 s /\ (forall t, thread s t = Idle) /\
  clock s O = iterLocal k 0 pt /\ length (hist s) = k /\ maxPT (hist s) = (match k with O => 0 | _ => Z.max (PhysicalTime48 pt) 0 end) /\
  (forall e, In e (hist s) -> ev_pt e = pt) /\
  (k <> O -> exists e, nth_error (hist s) (k - 1) = Some e /\ ev_ts e = clock s O).
Proof.
  intros pt. induction k as [|k (s & R & T & C & L & M & P & N)].
  - exists sys0. repeat split; auto; [apply steps_refl|intros e []|congruence].
  - destruct s as [c th h]. simpl in *.
    eexists. split.
    + eapply steps_step; [|apply s_cas_ok with (t := O) (o := Local) (j := c O) (pt := pt)].
      * eapply steps_step; [|apply s_clock with (t := O) (o := Local) (j := c O) (pt := pt)].
        -- eapply steps_step; [|apply s_load with (t := O) (o := Local)].
           ++ eapply steps_step; [exact R|apply s_call with (t := O) (o := Local); [apply T|intros; discriminate]].
           ++ reflexivity.
        -- reflexivity.
      * reflexivity.
      * reflexivity.
    + cbn [thread clock hist]. split; [|split; [|split; [|split; [|split]]]].
      * intros t. unfold upd. destruct (Nat.eqb_spec t O); auto.
      * unfold upd. cbn. rewrite C. reflexivity.
      * rewrite app_length. simpl. lia.
      * rewrite maxPT_app, M. simpl. destruct k; lia.
      * intros e He. apply in_app_or in He. destruct He as [He|[<-|[]]]; auto.
      * intros _. eexists. split.
        -- assert (Ek : (k - 0)%nat = length h) by lia. rewrite Ek. apply nth_error_last.
        -- reflexivity.
Qed.
Lemma iterLocal_run : forall q pt k, PhysicalTime48 pt = 65536 * q -> 0 <= q < 2 ^ 40 -> Z.of_nat k <= 65536 ->
  iterLocal k (65536 * q) pt = 65536 * q + Z.of_nat k.
Proof.
  intros q pt k P Q. induction k as [|k IH]; intros L; [simpl; lia|].
  cbn [iterLocal]. rewrite IH by lia. unfold localValue. rewrite P, LC_small by lia.
  destruct (Z.ltb_spec (65536 * q) (65536 * q)); [lia|]. rewrite Z.eqb_refl.
  replace (65536 * q + Z.of_nat k) with (Z.of_nat k + q * 65536) by lia. rewrite Count_eq, Z.mod_add, Z.mod_small by lia. rewrite wrap64_id; lia.
Qed.
Theorem C20_counter_overflow_refuted : exists no s i e, steps no sys0 s /\ saneClocks (hist s) /\
  nth_error (hist s) i = Some e /\ maxPT (hist s) < LC (ev_ts e).
Proof.
  destruct (run_local 0 (Z.to_nat 65536)) as (s & R & _ & C & L & M & P & N).
  destruct N as (e & E & T); [lia|].
  exists (fun _ => O), s, (Z.to_nat 65536 - 1)%nat, e. split; [exact R|]. split; [|split; [exact E|]].
  - intros x Hx. rewrite (P x Hx). lia.
  - rewrite M, T, C. rewrite (iterLocal_run 0 0); try lia; [|reflexivity].
    change (65536 * 0 + Z.of_nat (Z.to_nat 65536)) with 65536. vm_compute. reflexivity.
Qed.
Print Assumptions C20_counter_overflow_refuted.
(** ** And one bad message breaks monotonicity: the sum overflows int64. *)
Theorem C20_hostile_message_refuted : exists j m pt, 0 <= j < 2 ^ 62 /\ - 2 ^ 63 <= m < 2 ^ 63 /\ 0 <= pt < 2 ^ 62 /\
  recvValue j m pt < j /\ recvValue j m pt < m.
Proof. exists 65536, (2 ^ 63 - 1), 1000000. vm_compute. intuition discriminate. Qed.
Print Assumptions C20_hostile_message_refuted.

(** * Non-vacuity: node 0 makes an event, node 1 receives it with its clock far
    behind, two goroutines of node 1 collide. *)
Definition nodeOf (t : nat) : nat := match t with O => O | _ => 1%nat end.
Example C20_nonvacuous : exists s a b d, steps nodeOf sys0 s /\ saneClocks (hist s) /\ hist s = [a; b; d] /\
  ev_node a = O /\ ev_op b = Recv 0 /\ ev_pt b < ev_pt a /\ ev_node d = 1%nat /\
  happensBefore (hist s) 0 2 /\ ev_ts a = 1048576 /\ ev_ts b = 1048577 /\ ev_ts d = 1048578.
Proof.
  eexists. exists (mkEv 0 Local 1000000 1048576), (mkEv 1 (Recv 0) 5 1048577), (mkEv 1 Local 6 1048578).
  split.
  - (* thread 2 loads first, loses the race to thread 1, and retries *)
    eapply steps_step; [|apply s_cas_ok with (t := 2%nat) (o := Local) (j := 1048577) (pt := 6)].
    eapply steps_step; [|apply s_clock with (t := 2%nat) (o := Local) (j := 1048577) (pt := 6)].
    eapply steps_step; [|apply s_load with (t := 2%nat) (o := Local)].
    eapply steps_step; [|apply s_cas_fail with (t := 2%nat) (o := Local) (j := 0) (pt := 7)].
    eapply steps_step; [|apply s_cas_ok with (t := 1%nat) (o := Recv 0) (j := 0) (pt := 5)].
    eapply steps_step; [|apply s_clock with (t := 1%nat) (o := Recv 0) (j := 0) (pt := 5)].
    eapply steps_step; [|apply s_load with (t := 1%nat) (o := Recv 0)].
    eapply steps_step; [|apply s_call with (t := 1%nat) (o := Recv 0)].
    eapply steps_step; [|apply s_clock with (t := 2%nat) (o := Local) (j := 0) (pt := 7)].
    eapply steps_step; [|apply s_load with (t := 2%nat) (o := Local)].
    eapply steps_step; [|apply s_call with (t := 2%nat) (o := Local)].
    eapply steps_step; [|apply s_cas_ok with (t := 0%nat) (o := Local) (j := 0) (pt := 1000000)].
    eapply steps_step; [|apply s_clock with (t := 0%nat) (o := Local) (j := 0) (pt := 1000000)].
    eapply steps_step; [|apply s_load with (t := 0%nat) (o := Local)].
    eapply steps_step; [apply steps_refl|apply s_call with (t := 0%nat) (o := Local)].
    all: try reflexivity; try discriminate; try (intros; discriminate).
    intros i E; injection E as <-. cbn. lia.
  - cbn [hist]. split; [|split; [vm_compute; reflexivity|]].
    + intros e He. vm_compute in He. destruct He as [<-|[<-|[<-|[]]]]; cbn; lia.
    + repeat split.
      eapply hb_trans with (j := 1%nat).
      * eapply hb_msg; [vm_compute; reflexivity|reflexivity|lia].
      * eapply hb_node; [vm_compute; reflexivity|vm_compute; reflexivity|reflexivity|lia].
Qed.
