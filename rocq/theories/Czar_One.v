(** Who is czar now: the lease a czar thinks it has is the one in the key, as
    long as the clock of Tube's leader is not more than the drift bound ahead. *)
From Coq Require Import List ZArith Bool Arith Lia.
Import ListNotations.
From Verif Require Import Czar_Model Czar_Spec Czar_Proofs Czar_Step Czar_Events Czar_Members Czar_Views Czar_Ping Czar_Runs.
Local Open Scope Z_scope.

Section One.
Variable drift : Z.
Hypothesis drift0 : 0 <= drift.
Notation Inv := (Inv drift).
Notation step := (step drift).
Notation run := (run drift).

Definition cur (w : world) (e u : Z) : Prop :=
  (exists l, wLeaf w = Some l /\ fEpoch l = e /\ u <= fUntil l) \/ u < wNow w.
Definition J (w : world) (H : list (Z * obs)) : Prop :=
  (forall i P, wProcs w i = Some P -> own H (vEpoch (cVers P)) i -> cur w (vEpoch (cVers P)) (vUntil (cVers P))) /\
  (forall n e u, In (n, Won e u) (wRes w) -> cur w e u).

Definition from (w : world) (H : list (Z * obs)) (i : nat) (P' : proc) : Prop :=
  (exists P, wProcs w i = Some P /\ vEpoch (cVers P) = vEpoch (cVers P') /\ vUntil (cVers P) = vUntil (cVers P')) \/
  (exists n, In (n, Won (vEpoch (cVers P')) (vUntil (cVers P'))) (wRes w)) \/
  ~ own H (vEpoch (cVers P')) i.

Lemma from_set w H i X j P' : (forall P, wProcs w j = Some P -> from w H j P) ->
  (forall P, X = Some P -> from w H i P) -> setProc i X (wProcs w) j = Some P' -> from w H j P'.
Proof.
  intros A B E. destruct (Nat.eq_dec j i) as [-> |NE]; [rewrite setProc_eq in E; auto|].
  rewrite setProc_ne in E by assumption. auto.
Qed.

Lemma from_same w H i P P' : wProcs w i = Some P -> vEpoch (cVers P') = vEpoch (cVers P) -> vUntil (cVers P') = vUntil (cVers P) -> from w H i P'.
Proof. intros E A B. left. exists P. auto. Qed.

Ltac same E := intros ? X; injection X as <-; eapply from_same; [exact E|reflexivity|reflexivity].
Ltac stay := intros; eapply from_same; [eassumption|reflexivity|reflexivity].

Lemma step_from w used H e : Inv w used H -> forall j P', wProcs (fst (step w e)) j = Some P' -> from w H j P'.
Proof.
  intros IV j P'. pose proof (iv_hist _ _ _ _ IV) as HO.
  assert (ST : forall k P, wProcs w k = Some P -> from w H k P) by stay.
  destruct e; cbn [Czar_Model.step].
  - cbn. apply ST.
  - destruct (existsb (Nat.eqb i) (wUsed w)) eqn:EX; [apply ST|]. cbn. intro E. eapply from_set; [apply ST| |exact E].
    intros P X. injection X as <-. right. right. intro O. destruct (ho_own _ HO _ _ O) as (L & _). cbn in L. lia.
  - cbn. intro E. eapply from_set; [apply ST| |exact E]. discriminate.
  - destruct (wProcs w i) as [P|] eqn:E; [|apply ST]. destruct (_ && _); [|apply ST].
    cbn. intro E'. eapply from_set; [apply ST| |exact E']. same E.
  - destruct (wProcs w i) as [P|] eqn:E; [|apply ST]. destruct (_ && _); [|apply ST].
    cbn. intro E'. eapply from_set; [apply ST| |exact E']. same E.
  - destruct (pick n (wTkts w)) as [t|]; [|apply ST]. destruct (cas drift tm (wLeaf w) t) as [lf r]. cbn. apply ST.
  - destruct (wProcs w i) as [P|] eqn:E; [|apply ST].
    pose proof (iv_proc _ _ _ _ IV _ _ E) as PO.
    destruct (cWait P) as [|n l|n|n b] eqn:W; try apply ST;
      (destruct (pick n (wRes w)) as [r|] eqn:EK; [|apply ST]); apply pick_In in EK;
      pose proof (iv_res _ _ _ _ IV _ _ EK) as (_ & R2).
    + destruct r as [e u|e u cur0|]; cbn [afterCas].
      * destruct (u - wNow w <? enough).
        { cbn. intro E'. eapply from_set; [apply ST| |exact E']. same E. }
        destruct (setVers _ _ _ _ _ _) as [[Q o]|] eqn:SV.
        -- destruct (setVers_spec _ _ _ _ _ _ _ _ SV) as (_ & _ & -> & _). cbn. intro E'.
           eapply from_set; [apply ST| |exact E']. intros ? X; injection X as <-. right. left. exists n. exact EK.
        -- cbn. intro E'. eapply from_set; [apply ST| |exact E']. same E.
      * destruct (_ && negb (u =? 0)) eqn:C1.
        { cbn. intro E'. eapply from_set; [apply ST| |exact E']. discriminate. }
        destruct (setVers _ _ _ _ _ _) as [[Q o]|] eqn:SV.
        -- destruct (setVers_spec _ _ _ _ _ _ _ _ SV) as (S1 & _ & -> & _). cbn. intro E'.
           eapply from_set; [apply ST| |exact E']. intros ? X; injection X as <-. right. right. cbn.
           intro OI. destruct R2 as (RB & RO & k & RC & OW).
           assert (EI : dPeer k = i) by (exact (ho_one _ HO _ _ _ OW OI)).
           destruct RO as (RO & _). pose proof (RO _ RC) as U. rewrite EI in U. cbn in U.
           assert (EN : dName k = cName P) by (exact (ho_fun _ HO _ _ _ U (po_used _ _ _ _ PO))).
           rewrite RC in C1. cbn [cName withWait] in C1. rewrite EN, Nat.eqb_refl in C1. cbn [andb] in C1.
           apply negb_false_iff, Z.eqb_eq in C1. cbn in S1. pose proof (ho_now _ HO) as N1. cbn in N1. pose proof (later_pos d). lia.
        -- cbn. intro E'. eapply from_set; [apply ST| |exact E']. same E.
      * cbn. intro E'. eapply from_set; [apply ST| |exact E']. same E.
    + destruct r as [e u|e u cur0|]; cbn [afterRenew].
      * destruct (e <? _); cbn; intro E'; (eapply from_set; [apply ST| |exact E']); [discriminate|].
        intros ? X; injection X as <-. right. left. exists n. exact EK.
      * cbn. intro E'. eapply from_set; [apply ST| |exact E']. same E.
      * cbn. intro E'. eapply from_set; [apply ST| |exact E']. same E.
  - destruct (wProcs w i) as [P|] eqn:E; [|apply ST]. destruct (cWait P); try apply ST;
      cbn; intro E'; (eapply from_set; [apply ST| |exact E']); same E.
  - destruct (wProcs w i) as [P|] eqn:E; [|apply ST]. destruct (_ && _); [|apply ST].
    destruct (lCzar (cList P)); [|cbn; intro E'; eapply from_set; [apply ST| |exact E']; discriminate].
    destruct (_ || _); cbn; intro E'; (eapply from_set; [apply ST| |exact E']); same E.
  - destruct (wProcs w i) as [P|] eqn:E; [|apply ST]. destruct (cConn P) as [[q a]|]; [|apply ST]. destruct (_ && _); [|apply ST].
    cbn; intro E'; (eapply from_set; [apply ST| |exact E']); same E.
  - destruct (pick n (wPings w)) as [g|]; [|apply ST]. destruct (wProcs w (pTo g)) as [P|] eqn:E; [|apply ST].
    destruct (isAm P && negb (isIdle P)); [apply ST|].
    destruct (handlePing _ _ _ _ _ _) as [[[Q o] a]|] eqn:HP.
    2:{ cbn. intro E'. eapply from_set; [apply ST| |exact E']. discriminate. }
    cbn. intro E'. eapply from_set; [apply ST| |exact E']. intros ? X; injection X as <-.
    destruct (handlePing_spec _ _ _ _ _ _ _ _ _ HP) as [(_ & _ & [-> |[_ ->]])|(_ & _ & l & _ & _ & _ & _ & _ & _ & _ & _ & CASES)].
    + eapply from_same; [exact E|reflexivity|reflexivity].
    + eapply from_same; [exact E|reflexivity|reflexivity].
    + eapply from_same; [exact E| |]; destruct CASES as [(_ & -> & _)|(-> & _)]; reflexivity.
  - destruct (wProcs w i) as [P|] eqn:E; [|apply ST]. destruct (cWait P) as [|n l|n|n b] eqn:W; try apply ST.
    destruct (pick n (wPongs w)) as [r|] eqn:EK; [|apply ST]. apply pick_In in EK.
    pose proof (iv_pong _ _ _ _ IV _ _ EK) as (_ & R2).
    assert (NO : forall v l, r = Some (v, l) -> ~ own H (vEpoch v) i).
    { intros v l -> O. destruct R2 as (_ & t & q & p & RI & RW). destruct (ho_ans _ HO _ _ _ _ _ RI) as (OW & _).
      apply (RW _ _ E); [exists b; assumption|]. exact (ho_one _ HO _ _ _ O OW). }
    destruct b.
    + unfold afterFirst. destruct r as [[v l]|].
      * destruct (setVers _ _ _ _ _ _) as [[Q o]|] eqn:SV.
        -- destruct (setVers_spec _ _ _ _ _ _ _ _ SV) as (_ & _ & -> & _). cbn. intro E'.
           eapply from_set; [apply ST| |exact E']. intros ? X; injection X as <-. right. right. cbn. eauto.
        -- cbn. intro E'. eapply from_set; [apply ST| |exact E']. same E.
      * cbn. intro E'. eapply from_set; [apply ST| |exact E']. same E.
    + unfold afterBeat. destruct r as [[v l]|].
      * destruct (getP _ _) as [e|]; [|cbn; intro E'; eapply from_set; [apply ST| |exact E']; discriminate].
        destruct (_ && _); [cbn; intro E'; eapply from_set; [apply ST| |exact E']; same E|].
        destruct (setVers _ _ _ _ _ _) as [[Q o]|] eqn:SV.
        -- destruct (setVers_spec _ _ _ _ _ _ _ _ SV) as (_ & _ & -> & _). cbn. intro E'.
           eapply from_set; [apply ST| |exact E']. intros ? X; injection X as <-. right. right. cbn. eauto.
        -- cbn. intro E'. eapply from_set; [apply ST| |exact E']. same E.
      * cbn. intro E'. eapply from_set; [apply ST| |exact E']. same E.
  - destruct (wProcs w i) as [P|] eqn:E; [|apply ST]. destruct (cWait P); try apply ST;
      cbn; intro E'; (eapply from_set; [apply ST| |exact E']); same E.
  - destruct (wProcs w i) as [P|] eqn:E; [|apply ST]. destruct (_ && _); [|apply ST].
    cbn; intro E'; (eapply from_set; [apply ST| |exact E']); same E.
  - destruct (wProcs w i) as [P|] eqn:E; [|apply ST]. destruct (_ && _); [|apply ST].
    destruct (expire drift (wNow w) P) as [[l|] h].
    + destruct (setVers _ _ _ _ _ _) as [[Q o]|] eqn:SV.
      * destruct (setVers_spec _ _ _ _ _ _ _ _ SV) as (_ & _ & -> & _). cbn. intro E'.
        eapply from_set; [apply ST| |exact E']. intros ? X; injection X as <-. eapply from_same; [exact E|reflexivity|reflexivity].
      * cbn. intro E'. eapply from_set; [apply ST| |exact E']. same E.
    + cbn. intro E'. eapply from_set; [apply ST| |exact E']. same E.
  - destruct (wProcs w i) as [P|] eqn:E; [|apply ST]. destruct (_ && _); [|apply ST].
    cbn; intro E'; (eapply from_set; [apply ST| |exact E']); same E.
Qed.

(** Everything but EApply leaves the key, the results and the epochs. *)
Lemma step_rest w e : (forall n tm, e <> EApply n tm) ->
  wLeaf (fst (step w e)) = wLeaf w /\ wRes (fst (step w e)) = wRes w /\ wNow w <= wNow (fst (step w e)) /\
  forall ep j, ~ In (OEpoch ep j) (snd (step w e)).
Proof.
  intro NA.
  assert (SET : forall t i v l up P P' o, setVers t i v l up P = Some (P', o) -> forall ep j, ~ In (OEpoch ep j) o).
  { intros t i v l up P P' o SV ep j K. destruct (setVers_spec _ _ _ _ _ _ _ _ SV) as (_ & _ & _ & [-> |[-> _]]); [destruct K|].
    destruct K as [K|[]]; discriminate. }
  assert (Z0 : forall (w1 : world), wLeaf w1 = wLeaf w1 /\ wRes w1 = wRes w1 /\ wNow w1 <= wNow w1 /\ forall ep j, ~ In (OEpoch ep j) []).
  { intro w1. split; [reflexivity|]. split; [reflexivity|]. split; [lia|auto]. }
  assert (SETTLE : forall i r t, wNow w <= t -> (forall P o, r = Go (P, o) -> forall ep j, ~ In (OEpoch ep j) o) ->
    wLeaf (fst (settle i r (at_ t w))) = wLeaf w /\ wRes (fst (settle i r (at_ t w))) = wRes w /\
    wNow w <= wNow (fst (settle i r (at_ t w))) /\ forall ep j, ~ In (OEpoch ep j) (snd (settle i r (at_ t w)))).
  { intros i r t L R. destruct r as [[P o]|]; cbn; (split; [reflexivity|]); (split; [reflexivity|]); (split; [assumption|]); [eauto|].
    intros ep j [K|[]]. discriminate. }
  destruct e; cbn [Czar_Model.step]; try (pose proof (later_pos d) as D0).
  - cbn. split; [reflexivity|]. split; [reflexivity|]. split; [lia|auto].
  - destruct (existsb _ _); [apply (Z0 w)|]. cbn. split; [reflexivity|]. split; [reflexivity|]. split; [lia|auto].
  - cbn. split; [reflexivity|]. split; [reflexivity|]. split; [lia|auto].
  - destruct (wProcs w i); [destruct (_ && _)|]; apply (Z0 w).
  - destruct (wProcs w i); [destruct (_ && _)|]; apply (Z0 w).
  - destruct (NA n tm eq_refl).
  - destruct (wProcs w i) as [P|]; [|apply (Z0 w)]. destruct (cWait P) as [|n l|n|n b]; try apply (Z0 w).
    + destruct (pick n (wRes w)) as [r|]; [|apply (Z0 w)]. apply SETTLE; [lia|]. intros Q o E. destruct r as [e u|e u c|]; cbn [afterCas] in E.
      * destruct (u - wNow w <? enough); [injection E as <- <-; auto|].
        destruct (setVers _ _ _ _ _ _) as [[P' o']|] eqn:SV; injection E as <- <-; [eauto|auto].
      * destruct (_ && negb (u =? 0)); [discriminate|].
        destruct (setVers _ _ _ _ _ _) as [[P' o']|] eqn:SV; injection E as <- <-; [eauto|auto].
      * injection E as <- <-. auto.
    + destruct (pick n (wRes w)) as [r|]; [|apply (Z0 w)]. 
      assert (ST := SETTLE i (afterRenew i r (withWait Idle P)) (wNow w)). rewrite at_same in ST. apply ST; [lia|].
      intros Q o E. destruct r as [e u|e u c|]; cbn [afterRenew] in E.
      * destruct (e <? _); [discriminate|]. injection E as <- <-. intros ep j [K|[]]. discriminate.
      * injection E as <- <-. auto.
      * injection E as <- <-. auto.
  - destruct (wProcs w i) as [P|]; [|apply (Z0 w)]. destruct (cWait P); try apply (Z0 w);
      cbn; (split; [reflexivity|]); (split; [reflexivity|]); (split; [lia|auto]).
  - destruct (wProcs w i) as [P|]; [|apply (Z0 w)]. destruct (_ && _); [|apply (Z0 w)].
    destruct (lCzar (cList P)); [destruct (_ || _)|]; cbn; (split; [reflexivity|]); (split; [reflexivity|]); (split; [lia|]);
      intros ep j K; try (destruct K; fail); destruct K as [K|[]]; discriminate.
  - destruct (wProcs w i) as [P|]; [|apply (Z0 w)]. destruct (cConn P) as [[q a]|]; [|apply (Z0 w)]. destruct (_ && _); [|apply (Z0 w)].
    cbn; (split; [reflexivity|]); (split; [reflexivity|]); (split; [lia|]). intros ep j K; destruct K as [K|[]]; discriminate.
  - destruct (pick n (wPings w)) as [g|]; [|apply (Z0 w)]. destruct (wProcs w (pTo g)) as [P|]; [|apply (Z0 w)].
    destruct (isAm P && negb (isIdle P)); [apply (Z0 w)|].
    destruct (handlePing _ _ _ _ _ _) as [[[Q o] a]|] eqn:HP; cbn; (split; [reflexivity|]); (split; [reflexivity|]); (split; [lia|]).
    + intros ep j K. apply in_app_or in K. destruct K as [K|K].
      * destruct (handlePing_spec _ _ _ _ _ _ _ _ _ HP) as [(_ & -> & _)|(_ & _ & l & _ & _ & _ & _ & _ & _ & _ & _ & [(-> & _)|(_ & _ & [-> | ->] & _)])];
          try (destruct K; fail). destruct K as [K|[]]. discriminate.
      * destruct a as [[v l]|]; [destruct K as [K|[]]; discriminate|destruct K].
    + intros ep j K; destruct K as [K|[]]; discriminate.
  - destruct (wProcs w i) as [P|]; [|apply (Z0 w)]. destruct (cWait P) as [|n l|n|n b]; try apply (Z0 w).
    destruct (pick n (wPongs w)) as [r|]; [|apply (Z0 w)]. apply SETTLE; [lia|]. intros Q o E. destruct b.
    + unfold afterFirst in E. destruct r as [[v l]|]; [|injection E as <- <-; auto].
      destruct (setVers _ _ _ _ _ _) as [[P' o']|] eqn:SV; injection E as <- <-; [eauto|auto].
    + unfold afterBeat in E. destruct r as [[v l]|]; [|injection E as <- <-; auto].
      destruct (getP _ _) as [x|]; [|discriminate]. destruct (_ && _); [injection E as <- <-; auto|].
      assert (TL : forall ep j, ~ In (OEpoch ep j) (if vUntil v =? 0 then [] else [OLease i (eUntil x)])).
      { intros ep j K. destruct (vUntil v =? 0); [destruct K|destruct K as [K|[]]; discriminate]. }
      destruct (setVers _ _ _ _ _ _) as [[P' o']|] eqn:SV; injection E as <- <-; [|exact TL].
      intros ep j K. apply in_app_or in K. destruct K as [K|K]; [exact (TL _ _ K)|exact (SET _ _ _ _ _ _ _ _ SV _ _ K)].
  - destruct (wProcs w i) as [P|]; [|apply (Z0 w)]. destruct (cWait P); try apply (Z0 w);
      cbn; (split; [reflexivity|]); (split; [reflexivity|]); (split; [lia|auto]).
  - destruct (wProcs w i) as [P|]; [|apply (Z0 w)]. destruct (_ && _); [|apply (Z0 w)].
    cbn; (split; [reflexivity|]); (split; [reflexivity|]); (split; [lia|auto]).
  - destruct (wProcs w i) as [P|]; [|apply (Z0 w)]. destruct (_ && _); [|apply (Z0 w)].
    destruct (expire drift (wNow w) P) as [[l|] h].
    + destruct (setVers _ _ _ _ _ _) as [[P' o']|] eqn:SV; cbn; (split; [reflexivity|]); (split; [reflexivity|]); (split; [lia|]); eauto.
    + cbn; (split; [reflexivity|]); (split; [reflexivity|]); (split; [lia|auto]).
  - destruct (wProcs w i) as [P|]; [|apply (Z0 w)]. destruct (_ && _); [|apply (Z0 w)].
    cbn; (split; [reflexivity|]); (split; [reflexivity|]); (split; [lia|auto]).
Qed.

Lemma cur_time w w' e u : wLeaf w' = wLeaf w -> wNow w <= wNow w' -> cur w e u -> cur w' e u.
Proof. intros A B [C|C]; [left; rewrite A; exact C|right; lia]. Qed.

Lemma step_J w used H e :
  Inv w used H -> J w H -> (forall n tm, e = EApply n tm -> tm <= wNow w + drift) ->
  J (fst (step w e)) (H ++ stamped (fst (step w e)) (snd (step w e))).
Proof.
  intros IV [J1 J2] SD. pose proof (iv_hist _ _ _ _ IV) as HO.
  assert (DEC : (exists n tm, e = EApply n tm) \/ (forall n tm, e <> EApply n tm)).
  { destruct e; try (right; intros ? ? X; discriminate). left; eauto. }
  destruct DEC as [(n & tm & ->)|NA].
  - specialize (SD n tm eq_refl). cbn [Czar_Model.step].
    destruct (pick n (wTkts w)) as [t|] eqn:EK; [|cbn; rewrite app_nil_r; split; assumption].
    destruct (cas drift tm (wLeaf w) t) as [lf r] eqn:EC. cbn [fst snd].
    set (w' := World _ _ _ _ _ _ _ _ _).
    assert (CC : forall e u, cur w e u -> cur w' e u).
    { intros e u [(l & A & B & C)|C]; [|right; exact C]. unfold cur; cbn.
      destruct (cas_spec _ _ _ _ _ _ EC) as [(-> & _)|(e0 & -> & -> & X)]; [left; eauto|].
      rewrite A in X. destruct X as (X1 & X2 & [(-> & _)|(-> & X3)]).
      - left. eexists. split; [reflexivity|]. cbn. split; [assumption|lia].
      - right. lia. }
    split.
    + intros i P E O. apply CC. apply J1 with (i := i); [exact E|].
      apply own_app in O. destruct O as [O|[t0 O]]; [assumption|]. exfalso.
      unfold stamped in O. apply in_map_iff in O. destruct O as (x & X & O). injection X as _ ->.
      destruct r as [e0 u0| |]; [|destruct O|destruct O].
      destruct (cas_spec _ _ _ _ _ _ EC) as [(_ & [X|(x & _ & X)])|(e1 & X & _ & Y)]; [discriminate|discriminate|]. injection X as -> _.
      pose proof (po_epoch _ _ _ _ (iv_proc _ _ _ _ IV _ _ E)) as PE. pose proof (po_zero _ _ _ _ (iv_proc _ _ _ _ IV _ _ E)) as PZ.
      destruct (wLeaf w) as [l|] eqn:EL.
      * destruct (Z.eqb_spec e1 (fEpoch l)) as [Q|Q]; [destruct O|]. destruct O as [O|[]]. injection O as O _.
        destruct (ho_leaf _ HO l EL) as (B & _). destruct (ho_own _ HO _ _ B) as (B1 & _).
        destruct PE as [PE|[k PE]]; [lia|]. destruct (ho_own _ HO _ _ PE) as (_ & _ & l' & EL' & LE). cbn in EL'. rewrite EL in EL'. injection EL' as <-. lia.
      * destruct O as [O|[]]. injection O as O _. destruct PE as [PE|[k PE]]; [lia|].
        destruct (ho_own _ HO _ _ PE) as (_ & _ & l' & EL' & LE). cbn in EL'. congruence.
    + intros k e u [K|K]; [|apply CC; eauto]. injection K as -> ->.
      destruct (cas_spec _ _ _ _ _ _ EC) as [(_ & [X|(x & _ & X)])|(e1 & X & EL & Y)]; [discriminate|discriminate|]. injection X as -> ->.
      left. unfold w'. cbn. rewrite EL. eexists. split; [reflexivity|]. cbn. split; [reflexivity|lia].
  - destruct (step_rest w e NA) as (L1 & L2 & L3 & L4). split.
    + intros i P E O. apply own_app in O. destruct O as [O|[t O]].
      * eapply cur_time; [exact L1|exact L3|]. destruct (step_from w used H e IV i P E) as [(Q & Q1 & Q2 & Q3)|[(n & Q)|Q]].
        -- rewrite <- Q2, <- Q3. apply (J1 i); [assumption|]. rewrite Q2. assumption.
        -- eauto.
        -- contradiction.
      * exfalso. unfold stamped in O. apply in_map_iff in O. destruct O as (x & X & O). injection X as _ ->. exact (L4 _ _ O).
    + intros n ep u K. rewrite L2 in K. eapply cur_time; [exact L1|exact L3|eauto].
Qed.

Lemma run_IJ es : forall w used H, Inv w used H -> J w H -> steady drift w es ->
  exists used', Inv (fst (run w es)) used' (H ++ snd (run w es)) /\ J (fst (run w es)) (H ++ snd (run w es)).
Proof.
  induction es as [|e r IH]; intros w used H IV JW SD; cbn [Czar_Model.run].
  - exists used. cbn. rewrite app_nil_r. auto.
  - cbn [steady] in SD. destruct SD as [S1 S2].
    destruct (step_Inv drift drift0 w used H e IV) as [used1 IV1].
    assert (JW1 := step_J w used H e IV JW). destruct (step w e) as [w1 o]. cbn [fst snd] in *.
    destruct (IH _ _ _ IV1) as (used2 & IV2 & JW2); [|assumption|].
    { apply JW1. intros n tm ->. exact S1. }
    destruct (run w1 r) as [w2 tr]. cbn [fst snd] in *.
    exists used2. rewrite app_assoc. auto.
Qed.

Lemma steady_app es es' w : steady drift w (es ++ es') -> steady drift w es /\ steady drift (fst (run w es)) es'.
Proof.
  revert w. induction es as [|e r IH]; intros w S; cbn [app steady Czar_Model.run] in *; [auto|].
  destruct S as [S1 S2]. destruct (IH _ S2) as [A B]. destruct (step w e) as [w1 o]. cbn [fst] in *.
  destruct (run w1 r) as [w2 tr]. cbn [fst] in *. auto.
Qed.

Lemma start_J : J start [].
Proof. split; [discriminate|intros n e u []]. Qed.

Lemma reachJ es : steady drift start es -> exists used, Inv (fst (run start es)) used (snd (run start es)) /\ J (fst (run start es)) (snd (run start es)).
Proof. intro S. destruct (run_IJ es start [] [] (start_Inv drift) start_J S) as (u & A & B). exists u. auto. Qed.
End One.
