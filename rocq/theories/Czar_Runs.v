(** What one step can show, and where in a run a thing was shown. *)
From Coq Require Import List ZArith Bool Arith Lia.
Import ListNotations.
From Verif Require Import Czar_Model Czar_Spec Czar_Proofs Czar_Step Czar_Events Czar_Members Czar_Views Czar_Ping.
Local Open Scope Z_scope.

Section Runs.
Variable drift : Z.
Hypothesis drift0 : 0 <= drift.
Notation Inv := (Inv drift).
Notation step := (step drift).
Notation run := (run drift).

Definition plain (x : obs) : Prop := match x with OUp _ _ _ | OAns _ _ _ _ => False | _ => True end.

Definition upOK (w : world) (up : list obs) : Prop :=
  up = [] \/ exists p v l P, up = [OUp p v l] /\ wProcs w p = Some P /\ vle (cVers P) v.
Definition ansOK (w w' : world) (ans : list obs) : Prop :=
  ans = [] \/ exists q p v l P P', ans = [OAns q p v l] /\ wProcs w q = Some P /\ wProcs w' q = Some P' /\
    cState P = Am /\ wNow w <= vUntil (cVers P) /\ cVers P' = v /\ cList P' = l /\ cName P' = cName P /\
    vEpoch v = vEpoch (cVers P) /\ vle (cVers P) v.

Definition shape (w : world) (r : world * list obs) : Prop :=
  exists told up ans, snd r = told ++ up ++ ans /\ Forall plain told /\ upOK w up /\ ansOK w (fst r) ans.

Lemma shape_plain w r : Forall plain (snd r) -> shape w r.
Proof.
  intro F. exists (snd r), [], []. rewrite app_nil_r. repeat split; [assumption|left; reflexivity|left; reflexivity].
Qed.

Lemma shape_up w r told i P v l : snd r = told ++ [OUp i v l] -> Forall plain told -> wProcs w i = Some P -> vle (cVers P) v -> shape w r.
Proof.
  intros E F EP L. exists told, [OUp i v l], []. rewrite app_nil_r. split; [assumption|]. split; [assumption|].
  split; [right; exists i, v, l, P; auto|left; reflexivity].
Qed.

Ltac pl := solve [apply shape_plain; cbn; repeat constructor].

Lemma set_shape w i P P0 P' t v l up o told w' :
  setVers t i v l up P0 = Some (P', o) -> cVers P0 = cVers P -> wProcs w i = Some P -> Forall plain told ->
  shape w (w', told ++ o).
Proof.
  intros SV EV EP F. destruct (setVers_spec _ _ _ _ _ _ _ _ SV) as (_ & S2 & _ & [-> |[-> _]]).
  - rewrite app_nil_r. apply shape_plain. assumption.
  - eapply shape_up; [reflexivity|assumption|eassumption|congruence].
Qed.

Lemma step_shape w e : shape w (step w e).
Proof.
  destruct e; cbn [Czar_Model.step].
  - pl.
  - destruct (existsb _ _); pl.
  - pl.
  - destruct (wProcs w i); [destruct (_ && _)|]; pl.
  - destruct (wProcs w i); [destruct (_ && _)|]; pl.
  - destruct (pick n (wTkts w)) as [t|]; [|pl]. destruct (cas drift tm (wLeaf w) t) as [lf r].
    apply shape_plain. cbn [snd]. destruct r as [e0 u0| |]; repeat constructor.
    destruct (if wLeaf w then _ else _); repeat constructor.
  - destruct (wProcs w i) as [P|] eqn:E; [|pl]. destruct (cWait P) as [|n l|n|n b]; try pl.
    + destruct (pick n (wRes w)) as [r|]; [|pl]. destruct r as [e u|e u cur|]; cbn [afterCas].
      * destruct (u - wNow w <? enough); [pl|].
        destruct (setVers _ _ _ _ _ _) as [[P' o]|] eqn:SV; [|pl].
        cbn [settle]. eapply (set_shape w i P _ _ _ _ _ _ _ []); [exact SV|reflexivity|assumption|constructor].
      * destruct (_ && negb (u =? 0)); [pl|].
        destruct (setVers _ _ _ _ _ _) as [[P' o]|] eqn:SV; [|pl].
        cbn [settle]. eapply (set_shape w i P _ _ _ _ _ _ _ []); [exact SV|reflexivity|assumption|constructor].
      * pl.
    + destruct (pick n (wRes w)) as [r|]; [|pl]. destruct r as [e u|e u cur|]; cbn [afterRenew]; try pl.
      destruct (e <? _); pl.
  - destruct (wProcs w i) as [P|]; [destruct (cWait P)|]; pl.
  - destruct (wProcs w i) as [P|]; [|pl]. destruct (_ && _); [|pl]. destruct (lCzar (cList P)); [|pl].
    destruct (_ || _); pl.
  - destruct (wProcs w i) as [P|]; [|pl]. destruct (cConn P) as [[q a]|]; [|pl]. destruct (_ && _); pl.
  - destruct (pick n (wPings w)) as [g|]; [|pl]. destruct (wProcs w (pTo g)) as [P|] eqn:E; [|pl].
    destruct (isAm P && negb (isIdle P)); [pl|].
    destruct (handlePing _ _ _ _ _ _) as [[[P' o] a]|] eqn:HP; [|pl].
    destruct (handlePing_spec _ _ _ _ _ _ _ _ _ HP) as [(-> & -> & PP)|(SA & LN & l & -> & EL & E1 & E2 & E3 & E4 & E5 & E6 & CASES)]; [pl|].
    exists [], o, [OAns (pTo g) (pFrom g) (cVers P') l]. split; [reflexivity|]. split; [constructor|].
    assert (EV : vEpoch (cVers P') = vEpoch (cVers P) /\ vle (cVers P) (cVers P')).
    { destruct CASES as [(_ & -> & _)|(-> & _)]; [auto using vle_refl|]. cbn. auto using vle_bump. }
    destruct EV as [EV1 EV2]. split.
    + destruct CASES as [(-> & _)|(_ & _ & [-> | ->] & _)]; [left; reflexivity|left; reflexivity|].
      right. exists (pTo g), (cVers P'), l, P. auto.
    + right. exists (pTo g), (pFrom g), (cVers P'), l, P, P'. cbn [fst wProcs]. rewrite setProc_eq. auto 12.
  - destruct (wProcs w i) as [P|] eqn:E; [|pl]. destruct (cWait P) as [|n l|n|n b]; try pl.
    destruct (pick n (wPongs w)) as [r|]; [|pl]. destruct b.
    + unfold afterFirst. destruct r as [[v l]|]; [|pl].
      destruct (setVers _ _ _ _ _ _) as [[P' o]|] eqn:SV; [|pl].
      cbn [settle]. eapply (set_shape w i P _ _ _ _ _ _ _ []); [exact SV|reflexivity|assumption|constructor].
    + unfold afterBeat. destruct r as [[v l]|]; [|pl]. destruct (getP _ _) as [e|]; [|pl].
      destruct (_ && _); [pl|].
      destruct (setVers _ _ _ _ _ _) as [[P' o]|] eqn:SV.
      * cbn [settle]. eapply (set_shape w i P); [exact SV|reflexivity|assumption|]. destruct (vUntil v =? 0); repeat constructor.
      * cbn [settle]. apply shape_plain. cbn. destruct (vUntil v =? 0); repeat constructor.
  - destruct (wProcs w i) as [P|]; [destruct (cWait P)|]; pl.
  - destruct (wProcs w i) as [P|]; [|pl]. destruct (_ && _); pl.
  - destruct (wProcs w i) as [P|] eqn:E; [|pl]. destruct (_ && _); [|pl].
    destruct (expire drift (wNow w) P) as [[l|] h]; [|pl].
    destruct (setVers _ _ _ _ _ _) as [[P' o]|] eqn:SV; [|pl].
    eapply (set_shape w i P _ _ _ _ _ _ _ []); [exact SV|reflexivity|assumption|constructor].
  - destruct (wProcs w i) as [P|]; [|pl]. destruct (_ && _); pl.
Qed.

(** Where [y] was shown. *)
Lemma run_split es : forall w a y c, snd (run w es) = a ++ y :: c ->
  exists es1 e es2 o1 o2, es = es1 ++ e :: es2 /\
    snd (step (fst (run w es1)) e) = o1 ++ snd y :: o2 /\
    fst y = wNow (fst (step (fst (run w es1)) e)) /\
    a = snd (run w es1) ++ map (pair (fst y)) o1.
Proof.
  induction es as [|e r IH]; intros w a y c E; cbn [Czar_Model.run] in E.
  - destruct a; discriminate.
  - destruct (step w e) as [w1 o] eqn:ES. destruct (run w1 r) as [w2 tr] eqn:ER. cbn [snd] in E.
    apply app_eq_app in E. destruct E as [m [[E1 E2]|[E1 E2]]].
    + (* o stamped = a ++ m, y :: c = m ++ tr *)
      destruct m as [|z m].
      * cbn in E2. rewrite app_nil_r in E1. destruct (IH w1 [] y c) as (es1 & e' & es2 & o1 & o2 & A & B & C & D); [rewrite ER; symmetry; exact E2|].
        exists (e :: es1), e', es2, o1, o2. cbn [Czar_Model.run app]. rewrite ES.
        destruct (run w1 es1) as [w3 tr3]. cbn [fst snd] in *. split; [congruence|]. split; [assumption|]. split; [assumption|].
        symmetry in D. apply app_eq_nil in D. destruct D as [-> D]. rewrite D, app_nil_r, app_nil_r. symmetry. assumption.
      * injection E2 as <- E2.
        destruct (map_eq_app _ _ _ _ E1) as (o1 & o' & F1 & F2 & F3).
        destruct o' as [|x o2]; [discriminate|]. injection F3 as F3 F4.
        exists [], e, r, o1, o2. cbn. rewrite ES. cbn. subst y. cbn. split; [reflexivity|]. split; [assumption|].
        split; [reflexivity|]. symmetry. assumption.
    + destruct (IH w1 m y c) as (es1 & e' & es2 & o1 & o2 & A & B & C & D); [rewrite ER; exact E2|].
      exists (e :: es1), e', es2, o1, o2. cbn [Czar_Model.run app]. rewrite ES.
      destruct (run w1 es1) as [w3 tr3]. cbn [fst snd] in *. split; [congruence|]. split; [assumption|]. split; [assumption|].
      rewrite E1, D, app_assoc. reflexivity.
Qed.
End Runs.
