(** Every event keeps the invariant. *)
From Coq Require Import List ZArith Bool Arith Lia.
Import ListNotations.
From Verif Require Import Czar_Model Czar_Spec Czar_Proofs Czar_Step.
Local Open Scope Z_scope.

Section Events.
Variable drift : Z.
Hypothesis drift0 : 0 <= drift.
Notation Inv := (Inv drift).
Notation step := (step drift).

Definition stamped (w : world) (o : list obs) : list (Z * obs) := map (pair (wNow w)) o.
Definition Goal (w : world) (H : list (Z * obs)) (r : world * list obs) : Prop :=
  exists used', Inv (fst r) used' (H ++ stamped (fst r) (snd r)).

Lemma Goal_same w used H : Inv w used H -> Goal w H (w, []).
Proof. intro IV. exists used. cbn. rewrite app_nil_r. assumption. Qed.

Lemma setProc_id (f : nat -> option proc) i j : f j = setProc i (f i) f j.
Proof. unfold setProc. destruct (Nat.eqb_spec j i) as [-> |]; reflexivity. Qed.

Lemma tick_ok w used H t : Inv w used H -> wNow w <= t -> Inv (at_ t w) used (H ++ []).
Proof.
  intros IV L.
  assert (Z : exists P, wProcs w 0%nat = P) by eauto. destruct Z as [[P|] E].
  - eapply (Inv_light drift w used H (at_ t w) [] 0%nat P P IV (quiet_nil)); cbn; auto.
    + intro j. rewrite <- E. apply setProc_id.
    + intros q a EC. exact (po_conn _ _ _ _ (iv_proc _ _ _ _ IV _ _ E) _ _ EC).
    + exact (po_ping _ _ _ _ (iv_proc _ _ _ _ IV _ _ E)).
  - eapply (Inv_gone drift w used H (at_ t w) [] 0%nat IV (quiet_nil)); cbn; auto.
    intro j. rewrite <- E. apply setProc_id.
Qed.

Lemma ev_tick w used H d : Inv w used H -> Goal w H (step w (ETick d)).
Proof. intro IV. exists used. cbn. apply tick_ok; [assumption|]. pose proof (later_pos d). lia. Qed.

Lemma ev_kill w used H i : Inv w used H -> Goal w H (step w (EKill i)).
Proof.
  intro IV. exists used. cbn. eapply (Inv_gone drift w used H _ [] i IV (quiet_nil)); cbn; auto; lia.
Qed.

Lemma ev_start w used H i nm ad : Inv w used H -> Goal w H (step w (EStart i nm ad)).
Proof.
  intro IV. cbn. destruct (existsb (Nat.eqb i) (wUsed w)) eqn:EX; [apply (Goal_same _ used); assumption|].
  assert (NI : forall a, ~ In (i, a) used).
  { intros a J. assert (J' : In i (wUsed w)).
    { rewrite <- (iv_used _ _ _ _ IV). apply in_map_iff. exists (i, a). auto. }
    assert (existsb (Nat.eqb i) (wUsed w) = true) by (apply existsb_exists; exists i; rewrite Nat.eqb_refl; auto). congruence. }
  exists ((i, nm) :: used). cbn. rewrite app_nil_r.
  set (w' := World _ _ _ _ _ _ _ _ _).
  assert (G : grows (ctxOf w used H) (ctxOf w' ((i, nm) :: used) H) []).
  { unfold grows, ctxOf; cbn. split; [lia|]. split; [intros l E; exists l; split; [assumption|lia]|].
    split; [auto|]. split; [lia|]. rewrite app_nil_r. reflexivity. }
  assert (ST : stays (ctxOf w used H) (wProcs w) (wProcs w')).
  { intros j Q' E. cbn in E. unfold setProc in E. destruct (Nat.eqb_spec j i) as [-> |NE].
    - inversion E; subst. right. cbn. intros n [].
    - left. exists Q'. auto. }
  destruct IV as [I1 I2 I3 I4 I5 I6 I7].
  assert (NO : forall e, ~ own H e i).
  { intros e O. destruct (ho_own _ I2 _ _ O) as (_ & (a & J) & _). exact (NI _ J). }
  constructor.
  - cbn. congruence.
  - destruct I2 as [A1 A2 A3 A4 A5 A6 A7 A7b A8]. constructor; cbn in *; auto.
    + intros j a b [E|J] [E'|J']; try congruence; [inversion E; subst; destruct (NI _ J')|inversion E'; subst; destruct (NI _ J)|eauto].
    + intros e j O. destruct (A3 _ _ O) as (B1 & (a & B2) & B3). eauto 6.
    + intros l E. destruct (A5 _ E) as (B1 & B2 & B3 & B4). split; [assumption|]. split; [auto|]. split; [|assumption].
      eapply okL_mono; [apply Z.le_refl| |exact B3]. intros x J; right; exact J.
    + intros t q p v l J. destruct (A7 _ _ _ _ _ J) as (B1 & B2 & B3 & nm0 & B4 & B5). split; [assumption|].
      split; [|split; [assumption|exists nm0; split; [right|]; assumption]].
      eapply okL_mono; [apply Z.le_refl| |exact B2]. intros x Jx; right; exact Jx.
    + intros t j v l J. destruct (A7b _ _ _ _ J). eauto.
  - intros j P E. cbn in E. unfold setProc in E. destruct (Nat.eqb_spec j i) as [-> |NE].
    + injection E as <-. constructor; cbn.
      * left; reflexivity.
      * split; [discriminate|]. split; [intros ? []|constructor].
      * split; [lia|reflexivity].
      * left; reflexivity.
      * left; reflexivity.
      * intro O. destruct (NO _ O).
      * discriminate.
      * reflexivity.
      * discriminate.
      * intros n [].
      * discriminate.
      * discriminate.
      * discriminate.
      * intros v l _ O. destruct (NO _ O).
      * intros t v l J. exfalso. destruct (ho_up _ I2 _ _ _ _ J) as [a Ja]. exact (NI _ Ja).
      * intros t p v l m e J. exfalso. destruct (ho_ans _ I2 _ _ _ _ _ J) as (O & _). exact (NO _ O).
    + eapply (procOK_mono drift _ _ [] j P G).
      * intros e [t []].
      * intros v l S. destruct (shown_nil _ _ S).
      * intros t v l [].
      * intros t p v l [].
      * exact (I3 _ _ E).
  - intros n t J. eapply tktOK_mono; eauto.
  - intros n t J. eapply resOK_mono; eauto.
  - intros n t J. eapply pingOK_mono; eauto.
  - intros n t J. eapply pongOK_mono; eauto.
Qed.


(** ** The key *)

Lemma cas_spec tm lf t lf' r : cas drift tm lf t = (lf', r) ->
  (lf' = lf /\ (r = Failed \/ exists l, lf = Some l /\ r = Lost (fEpoch l) (fUntil l + drift) (fVal l))) \/
  (exists e, r = Won e (tm + czarLease) /\
     lf' = Some (Leaf (tName t) (tPeer t) (tm + czarLease) e (tVal t)) /\
     match lf with
     | None => e = 1 /\ tPrev t <= 0
     | Some l => fUntil l < tm + czarLease /\ (tPrev t <= 0 \/ tPrev t = fEpoch l) /\
                 ((e = fEpoch l /\ fName l = tName t /\ fPeer l = tPeer t) \/ (e = fEpoch l + 1 /\ fUntil l + drift < tm))
     end).
Proof.
  unfold cas. destruct lf as [l|]; cbv zeta.
  - destruct (negb (fUntil l + drift <? tm) && negb (Nat.eqb (fName l) (tName t))); [intro E; injection E as <- <-; eauto 6|].
    destruct ((0 <? tPrev t) && negb (tPrev t =? fEpoch l)) eqn:E1; [intro E; injection E as <- <-; eauto 6|].
    destruct (tm + czarLease <=? fUntil l) eqn:E2; [intro E; injection E as <- <-; eauto 6|].
    apply Z.leb_gt in E2.
    assert (X : tPrev t <= 0 \/ tPrev t = fEpoch l).
    { apply andb_false_iff in E1. destruct E1 as [E1|E1]; [apply Z.ltb_ge in E1; auto|].
      apply negb_false_iff, Z.eqb_eq in E1. auto. }
    destruct (Nat.eqb_spec (fName l) (tName t)) as [N|N]; destruct (Nat.eqb_spec (fPeer l) (tPeer t)) as [M|M]; cbn [andb];
      try (intro E; injection E as <- <-; right; exists (fEpoch l); auto 8; fail);
      (destruct (0 <? tm - (fUntil l + drift)) eqn:E3; [|intro E; injection E as <- <-; eauto 6]);
      apply Z.ltb_lt in E3; intro E; injection E as <- <-; right; exists (fEpoch l + 1);
      (split; [reflexivity|]; split; [reflexivity|]; split; [lia|]; split; [assumption|right; split; lia]).
  - destruct (0 <? tPrev t) eqn:E1; intro E; injection E as <- <-; [auto|].
    apply Z.ltb_ge in E1. right. exists 1. auto.
Qed.

Lemma ev_apply w used H n tm : Inv w used H -> Goal w H (step w (EApply n tm)).
Proof.
  intro IV. cbn. destruct (pick n (wTkts w)) as [t|] eqn:EK; [|apply (Goal_same _ used); assumption].
  apply pick_In in EK. pose proof (iv_tkt _ _ _ _ IV _ _ EK) as (T1 & T2 & T3 & T4 & (ta & T5) & T6). cbn in T1, T2, T3.
  destruct (cas drift tm (wLeaf w) t) as [lf r] eqn:EC. pose proof (iv_hist _ _ _ _ IV) as HO.
  set (o := match r with Won e _ => _ | _ => _ end). exists used. cbn [fst snd].
  set (w' := World _ _ _ _ _ _ _ _ _). set (K := stamped w' o).
  assert (KS : forall v l, ~ shown K v l).
  { assert (X : forall t0 x, In (t0, x) K -> exists e p, x = OEpoch e p).
    { intros t0 x J. unfold K, stamped, o in J. apply in_map_iff in J. destruct J as (y & Ey & J). injection Ey as _ <-.
      destruct r as [e0 u0| |]; [|destruct J|destruct J].
      destruct (match wLeaf w with Some l => e0 =? fEpoch l | None => false end); [destruct J|destruct J as [<-|[]]; eauto]. }
    intros v l [t0 [[p J]|[q [p J]]]]; destruct (X _ _ J) as (? & ? & ?); discriminate. }
  assert (KU : forall t0 j v l, ~ In (t0, OUp j v l) K).
  { intros t0 j v l J. apply (KS v l). exists t0. eauto. }
  assert (KA : forall t0 q p v l, ~ In (t0, OAns q p v l) K).
  { intros t0 q p v l J. apply (KS v l). exists t0. eauto. }
  assert (KO : forall e j, own K e j -> exists u, r = Won e u /\ j = tPeer t /\ lf <> wLeaf w /\
             match wLeaf w with Some l => e <> fEpoch l | None => True end).
  { intros e j [t0 J]. unfold K, stamped, o in J. destruct r as [e0 u0| |]; [|destruct J|destruct J].
    destruct (wLeaf w) as [l|] eqn:EL.
    - destruct (Z.eqb_spec e0 (fEpoch l)) as [Q|Q]; [destruct J|]. destruct J as [J|[]]. injection J as _ <- <-.
      exists u0. split; [reflexivity|]. split; [reflexivity|]. split; [|assumption].
      destruct (cas_spec _ _ _ _ _ EC) as [(_ & [X|(x & _ & X)])|(e & X & -> & Y)]; [discriminate|discriminate|].
      injection X as <- _. intro Z. injection Z as Z. apply Q. rewrite <- Z. reflexivity.
    - destruct J as [J|[]]. injection J as _ <- <-. exists u0. split; [reflexivity|]. split; [reflexivity|]. split; [|exact I].
      destruct (cas_spec _ _ _ _ _ EC) as [(_ & [X|(x & _ & X)])|(e & X & -> & Y)]; discriminate. }
  assert (G : grows (ctxOf w used H) (ctxOf w' used (H ++ K)) K).
  { unfold grows, ctxOf; cbn. split; [lia|]. split; [|split; [auto|split; [lia|reflexivity]]].
    intros l E. destruct (cas_spec _ _ _ _ _ EC) as [(-> & _)|(e & -> & -> & X)]; [exists l; split; [assumption|lia]|].
    rewrite E in X. eexists. split; [reflexivity|]. cbn. lia. }
  assert (ST : stays (ctxOf w used H) (wProcs w) (wProcs w')).
  { intros j Q E. left. exists Q. auto. }
  assert (BIG : forall e j, own K e j -> forall e' j', own H e' j' -> e' < e).
  { intros e j O e' j' O'. destruct (KO _ _ O) as (u & -> & -> & _ & NE).
    destruct (ho_own _ HO _ _ O') as (_ & _ & l & EL & LE). cbn in EL. rewrite EL in *.
    destruct (cas_spec _ _ _ _ _ EC) as [(_ & [X|(x & _ & X)])|(e0 & X & -> & Y)]; [discriminate|discriminate|].
    injection X as <- _. lia. }
  assert (ONE : forall e j e' j', own K e j -> own K e' j' -> j = j').
  { intros e j e' j' O O'. destruct (KO _ _ O) as (u & _ & -> & _). destruct (KO _ _ O') as (u' & _ & -> & _). reflexivity. }
  assert (LO : forall l, lf = Some l -> own (H ++ K) (fEpoch l) (fPeer l)).
  { intros l E. rewrite own_app. destruct (cas_spec _ _ _ _ _ EC) as [(X & _)|(e & -> & X & Y)].
    - left. apply (ho_leaf _ HO). cbn. congruence.
    - rewrite E in X. injection X as ->. cbn [fEpoch fPeer].
      destruct (wLeaf w) as [l0|] eqn:EL.
      + destruct Y as (_ & _ & [(-> & _ & <-)|(-> & _)]); [left; apply (ho_leaf _ HO l0); assumption|].
        right. exists (wNow w). unfold K, stamped, o. destruct (Z.eqb_spec (fEpoch l0 + 1) (fEpoch l0)); [lia|]. left. reflexivity.
      + right. exists (wNow w). unfold K, stamped, o. left. reflexivity. }
  assert (GE : forall e j, own (H ++ K) e j -> 1 <= e /\ exists l, lf = Some l /\ e <= fEpoch l).
  { intros e j O. apply own_app in O. destruct O as [O|O].
    - destruct (ho_own _ HO _ _ O) as (A & _ & l & B & C). destruct G as (_ & G & _). destruct (G _ B) as (l' & B' & D).
      split; [assumption|]. exists l'. split; [assumption|lia].
    - destruct (KO _ _ O) as (u & -> & -> & _ & NE).
      destruct (cas_spec _ _ _ _ _ EC) as [(_ & [X|(x & _ & X)])|(e0 & X & -> & Y)]; [discriminate|discriminate|].
      injection X as <- _. split; [|eexists; split; [reflexivity|cbn; lia]].
      destruct (wLeaf w) as [l0|] eqn:EL; [|lia].
      destruct (ho_leaf _ HO l0 EL) as (B & _). destruct (ho_own _ HO _ _ B) as (B1 & _). lia. }
  constructor.
  - exact (iv_used _ _ _ _ IV).
  - destruct HO as [A1 A2 A3 A4 A5 A6 A7 A7b A8]. cbn in *. constructor; cbn; auto.
    + intros e j O. destruct (GE _ _ O) as (B1 & B2). split; [assumption|]. split; [|assumption].
      apply own_app in O. destruct O as [O|O]; [apply (A3 _ _ O)|].
      destruct (KO _ _ O) as (u & _ & -> & _). eauto.
    + intros e j k O O'. apply own_app in O, O'. destruct O as [O|O], O' as [O'|O'].
      * eauto.
      * pose proof (BIG _ _ O' _ _ O). lia.
      * pose proof (BIG _ _ O _ _ O'). lia.
      * eapply ONE; eassumption.
    + intros l E. split; [auto|]. destruct (cas_spec _ _ _ _ _ EC) as [(X & _)|(e & -> & X & Y)].
      * apply A5. congruence.
      * rewrite E in X. injection X as ->. cbn. eauto.
    + intros v l S. apply shown_app in S. destruct S as [S|S]; [|destruct (KS _ _ S)].
      destruct (A6 _ _ S) as [j O]. exists j. apply own_app. auto.
    + intros t0 q p v l J. apply in_app_or in J. destruct J as [J|J]; [|destruct (KA _ _ _ _ _ J)].
      destruct (A7 _ _ _ _ _ J) as (B1 & B2). split; [apply own_app; auto|assumption].
    + intros t0 j v l J. apply in_app_or in J. destruct J as [J|J]; [eauto|destruct (KU _ _ _ _ J)].
    + intros v l v' l' S S' V. apply shown_app in S, S'.
      destruct S as [S|S]; [|destruct (KS _ _ S)]. destruct S' as [S'|S']; [eauto|destruct (KS _ _ S')].
  - intros j P E. pose proof (iv_proc _ _ _ _ IV _ _ E) as PO.
    eapply (procOK_mono drift _ _ K j P G).
    + intros e O. split.
      * destruct (po_epoch _ _ _ _ PO) as [Z|[k Z]].
        -- rewrite Z. destruct (GE e j) as [B _]; [apply own_app; auto|]. lia.
        -- pose proof (BIG _ _ O _ _ Z). lia.
      * intros v l S. destruct (ho_view _ HO _ _ S) as [k Z]. pose proof (BIG _ _ O _ _ Z). lia.
    + intros v l S. destruct (KS _ _ S).
    + intros t0 v l. apply KU.
    + intros t0 p v l. apply KA.
    + assumption.
  - intros k t0 J. apply drop_In in J. eapply tktOK_mono; eauto. apply (iv_tkt _ _ _ _ IV). exact J.
  - intros k r0 [J|J]; [|eapply resOK_mono; eauto; apply (iv_res _ _ _ _ IV); exact J].
    injection J as <- <-. split; [cbn; lia|].
    destruct (cas_spec _ _ _ _ _ EC) as [(EL & [-> |(l & EL' & ->)])|(e & -> & EL & Y)].
    + exact I.
    + destruct (ho_leaf _ HO l EL') as (B1 & B2 & B3 & (a & B4)). split; [|split; [exact B3|]].
      * exists l. cbn. split; [congruence|lia].
      * eexists. split; [exact B4|]. apply own_app. left. exact B1.
    + assert (EG : own (H ++ K) e (tPeer t)) by (apply (LO _ EL)).
      split; [|split].
      * eexists. split; [exact EL|]. cbn. lia.
      * apply (GE _ _ EG).
      * intros i P E W. destruct (T6 _ _ E W) as (<- & TP). cbn. split; [assumption|].
        destruct (po_zero _ _ _ _ (iv_proc _ _ _ _ IV _ _ E)) as (Z1 & Z2).
        pose proof (GE _ _ EG) as [E1 _].
        pose proof (po_until _ _ _ _ (iv_proc _ _ _ _ IV _ _ E)) as PU. cbn in PU.
        destruct (wLeaf w) as [l0|] eqn:EL0.
        -- destruct Y as (Y1 & Y2 & Y3). split; [lia|].
           destruct Y2 as [Y2|Y2]; [right; right; apply Z2; lia|].
           destruct Y3 as [(-> & _)|(-> & Y3)]; [left; congruence|].
           destruct PU as [PU|(x & PU & PU')]; [auto|]. injection PU as <-. right. left. unfold czarLease. lia.
        -- split; [lia|]. right. right. apply Z2. lia.
  - intros k t0 J. eapply pingOK_mono; eauto. apply (iv_ping _ _ _ _ IV). exact J.
  - intros k t0 J. eapply pongOK_mono; eauto. apply (iv_pong _ _ _ _ IV). exact J.
Qed.
End Events.
