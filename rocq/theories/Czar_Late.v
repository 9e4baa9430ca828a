(** States that the service does not leave: a key nobody can take, a member
    that no longer pings; and the two things that do happen: a takeover, the
    next heartbeat. Last, which steps can panic. *)
From Coq Require Import List ZArith Bool Arith Lia.
Import ListNotations.
From Verif Require Import Czar_Model Czar_Spec Czar_Proofs Czar_Step Czar_Events Czar_Members Czar_Views Czar_Ping Czar_Runs.
Local Open Scope Z_scope.

Section Late.
Variable drift : Z.
Hypothesis drift0 : 0 <= drift.
Notation Inv := (Inv drift).
Notation step := (step drift).
Notation run := (run drift).

(** *** A member that no longer pings. *)
Definition quiet (w : world) (i : nat) : Prop :=
  In i (wUsed w) /\ exists P, wProcs w i = Some P /\ cState P = Not /\ cWait P = Idle /\ cConn P <> None /\ cBeat P = false /\ cWatch P = false.

Lemma quiet_other w w' i : wUsed w' = wUsed w \/ (exists j, wUsed w' = j :: wUsed w) -> wProcs w' i = wProcs w i -> quiet w i -> quiet w' i.
Proof.
  intros U E (A & P & B & C). split; [|exists P; rewrite E; auto].
  destruct U as [-> |(j & ->)]; [assumption|right; assumption].
Qed.

Lemma settle_other w i j r : j <> i -> wProcs (fst (settle i r w)) j = wProcs w j.
Proof. intro N. destruct r as [[p o]|]; cbn; apply setProc_ne; assumption. Qed.
Lemma settle_used w i r : wUsed (fst (settle i r w)) = wUsed w.
Proof. destruct r as [[p o]|]; reflexivity. Qed.
Lemma settle_obs i r w x : In x (snd (settle i r w)) -> x = OPanic i \/ exists p o, r = Go (p, o) /\ In x o.
Proof. destruct r as [[p o]|]; cbn; [eauto|intros [<- |[]]; auto]. Qed.

Ltac sit := solve [split; [assumption|intros []]].
Ltac oth := cbn [fst snd]; split; [match goal with Q : quiet ?w _ |- _ => apply (quiet_other w) end; [left; reflexivity|cbn; first [reflexivity|apply setProc_ne; intro; subst; congruence]|assumption]|].

Lemma step_quiet w e i : quiet w i -> e <> EKill i -> quiet (fst (step w e)) i /\ ~ In (OPing i) (snd (step w e)).
Proof.
  intros Q NK. pose proof Q as (US & P & EP & A & B & C & D & W). destruct e as [d|j nm a|j|j|j|n tm|j d|j|j ok a|j|n d|j d|j|j|j|j]; cbn [Czar_Model.step].
  - oth. intros [].
  - destruct (existsb (Nat.eqb j) (wUsed w)) eqn:EX; [sit|]. cbn [fst snd]. split; [|intros []].
    apply (quiet_other w); [right; eexists; reflexivity| |exact Q]. cbn. apply setProc_ne. intros ->.
    assert (K : existsb (Nat.eqb j) (wUsed w) = true) by (apply existsb_exists; exists j; split; [assumption|apply Nat.eqb_refl]). congruence.
  - oth. intros [].
  - destruct (wProcs w j) as [P0|] eqn:E; [|sit]. destruct (isUnknown P0) eqn:S; cbn [andb]; [|sit]. destruct (isIdle P0); [|sit].
    assert (i <> j). { intros ->. rewrite EP in E. injection E as <-. unfold isUnknown in S. rewrite A in S. discriminate. }
    oth. intros [].
  - destruct (wProcs w j) as [P0|] eqn:E; [|sit]. destruct (isAm P0) eqn:S; cbn [andb]; [|sit]. destruct (isIdle P0); [|sit].
    assert (i <> j). { intros ->. rewrite EP in E. injection E as <-. unfold isAm in S. rewrite A in S. discriminate. }
    oth. intros [].
  - destruct (pick n (wTkts w)) as [t|]; [|sit]. destruct (cas drift tm (wLeaf w) t) as [lf r]. oth.
    destruct r; try (intros []; fail). destruct (if wLeaf w then _ else _); [intros []|intros [K|[]]; discriminate].
  - destruct (wProcs w j) as [P0|] eqn:E; [|sit]. destruct (Nat.eq_dec i j) as [<- |NE].
    { rewrite EP in E. injection E as <-. rewrite B. sit. }
    destruct (cWait P0) as [|n l|n|n b]; try sit; (destruct (pick n (wRes w)) as [r|]; [|sit]).
    + split; [apply (quiet_other w); [left; rewrite settle_used; reflexivity|rewrite settle_other by assumption; reflexivity|assumption]|].
      intro K. apply settle_obs in K. destruct K as [K|(p & o & EO & K)]; [discriminate|].
      destruct r as [e u|e u cur|]; cbn [afterCas] in EO.
      * destruct (u - wNow w <? enough); [injection EO as <- <-; destruct K|].
        destruct (setVers _ _ _ _ _ _) as [[P' o']|] eqn:SV; injection EO as <- <-; [|destruct K].
        destruct (setVers_spec _ _ _ _ _ _ _ _ SV) as (_ & _ & _ & [-> |[-> _]]); [destruct K|destruct K as [K|[]]; discriminate].
      * destruct (_ && negb (u =? 0)); [discriminate|].
        destruct (setVers _ _ _ _ _ _) as [[P' o']|] eqn:SV; injection EO as <- <-; [|destruct K].
        destruct (setVers_spec _ _ _ _ _ _ _ _ SV) as (_ & _ & _ & [-> |[-> _]]); [destruct K|destruct K as [K|[]]; discriminate].
      * injection EO as <- <-. destruct K.
    + split; [apply (quiet_other w); [left; rewrite settle_used; reflexivity|rewrite settle_other by assumption; reflexivity|assumption]|].
      intro K. apply settle_obs in K. destruct K as [K|(p & o & EO & K)]; [discriminate|].
      destruct r as [e u|e u cur|]; cbn [afterRenew] in EO; try (injection EO as <- <-; destruct K; fail).
      destruct (e <? _); [discriminate|]. injection EO as <- <-. destruct K as [K|[]]; discriminate.
  - destruct (wProcs w j) as [P0|] eqn:E; [|sit]. destruct (Nat.eq_dec i j) as [<- |NE].
    { rewrite EP in E. injection E as <-. rewrite B. sit. }
    destruct (cWait P0); try sit; oth; intros [].
  - destruct (wProcs w j) as [P0|] eqn:E; [|sit]. destruct (Nat.eq_dec i j) as [<- |NE].
    { rewrite EP in E. injection E as <-. destruct (cConn P) as [x|]; [|congruence]. rewrite andb_false_r. sit. }
    destruct (_ && _); [|sit]. destruct (lCzar (cList P0)); [|oth; intros [K|[]]; discriminate].
    destruct (_ || _); oth; [intros []|intros [K|[]]; congruence].
  - destruct (wProcs w j) as [P0|] eqn:E; [|sit]. destruct (Nat.eq_dec i j) as [<- |NE].
    { rewrite EP in E. injection E as <-. destruct (cConn P) as [[x y]|]; [|sit]. rewrite D, andb_false_r. sit. }
    destruct (cConn P0) as [[q y]|]; [|sit]. destruct (_ && _); [|sit]. oth. intros [K|[]]; congruence.
  - destruct (pick n (wPings w)) as [g|]; [|sit]. destruct (wProcs w (pTo g)) as [P0|] eqn:E; [|sit].
    destruct (isAm P0 && negb (isIdle P0)); [sit|].
    destruct (Nat.eq_dec i (pTo g)) as [EI|NE].
    + rewrite <- EI in *. rewrite EP in E. injection E as <-. unfold handlePing. rewrite A. cbn [fst snd app].
      split; [|intros []]. split; [assumption|]. exists P. cbn. rewrite setProc_eq. auto 8.
    + destruct (handlePing _ _ _ _ _ _) as [[[Q' o] a]|] eqn:HP.
      2:{ oth. intros [K|[]]; discriminate. }
      oth. intro K. apply in_app_or in K. destruct K as [K|K].
      * destruct (handlePing_spec _ _ _ _ _ _ _ _ _ HP) as [(_ & -> & _)|(_ & _ & l & _ & _ & _ & _ & _ & _ & _ & _ & CASES)]; [destruct K|].
        destruct CASES as [(-> & _)|(_ & _ & [-> | ->] & _)]; try (destruct K; fail). destruct K as [K|[]]; discriminate.
      * destruct a as [[v l]|]; [|destruct K]. destruct K as [K|[]]; discriminate.
  - destruct (wProcs w j) as [P0|] eqn:E; [|sit]. destruct (Nat.eq_dec i j) as [<- |NE].
    { rewrite EP in E. injection E as <-. rewrite B. sit. }
    destruct (cWait P0) as [|n l|n|n b]; try sit. destruct (pick n (wPongs w)) as [r|]; [|sit].
    split; [apply (quiet_other w); [left; rewrite settle_used; reflexivity|rewrite settle_other by assumption; reflexivity|assumption]|].
    intro K. apply settle_obs in K. destruct K as [K|(p & o & EO & K)]; [discriminate|].
    destruct b.
    + unfold afterFirst in EO. destruct r as [[v l]|]; [|injection EO as <- <-; destruct K].
      destruct (setVers _ _ _ _ _ _) as [[P' o']|] eqn:SV; injection EO as <- <-; [|destruct K].
      destruct (setVers_spec _ _ _ _ _ _ _ _ SV) as (_ & _ & _ & [-> |[-> _]]); [destruct K|destruct K as [K|[]]; discriminate].
    + unfold afterBeat in EO. destruct r as [[v l]|]; [|injection EO as <- <-; destruct K].
      destruct (getP _ _) as [x|]; [|discriminate]. destruct (_ && _); [injection EO as <- <-; destruct K|].
      destruct (setVers _ _ _ _ _ _) as [[P' o']|] eqn:SV; injection EO as <- <-.
      * apply in_app_or in K. destruct K as [K|K]; [destruct (_ =? _); [destruct K|destruct K as [K|[]]; discriminate]|].
        destruct (setVers_spec _ _ _ _ _ _ _ _ SV) as (_ & _ & _ & [-> |[-> _]]); [destruct K|destruct K as [K|[]]; discriminate].
      * destruct (_ =? _); [destruct K|destruct K as [K|[]]; discriminate].
  - destruct (wProcs w j) as [P0|] eqn:E; [|sit]. destruct (Nat.eq_dec i j) as [<- |NE].
    { rewrite EP in E. injection E as <-. rewrite B. sit. }
    destruct (cWait P0); try sit; oth; intros [].
  - destruct (wProcs w j) as [P0|] eqn:E; [|sit]. destruct (Nat.eq_dec i j) as [<- |NE].
    { rewrite EP in E. injection E as <-. rewrite W, andb_false_r. sit. }
    destruct (_ && _); [|sit]. oth. intros [].
  - destruct (wProcs w j) as [P0|] eqn:E; [|sit]. destruct (isAm P0) eqn:S; cbn [andb]; [|sit].
    assert (i <> j). { intros ->. rewrite EP in E. injection E as <-. unfold isAm in S. rewrite A in S. discriminate. }
    destruct (isIdle P0); [|sit]. destruct (expire drift (wNow w) P0) as [[l|] h]; [|oth; intros []].
    destruct (setVers _ _ _ _ _ _) as [[P' o']|] eqn:SV; [|oth; intros []]. oth. intro K.
    destruct (setVers_spec _ _ _ _ _ _ _ _ SV) as (_ & _ & _ & [-> |[-> _]]); [destruct K|destruct K as [K|[]]; discriminate].
  - destruct (wProcs w j) as [P0|] eqn:E; [|sit]. destruct (isAm P0) eqn:S; cbn [andb]; [|sit].
    assert (i <> j). { intros ->. rewrite EP in E. injection E as <-. unfold isAm in S. rewrite A in S. discriminate. }
    destruct (isIdle P0); cbn [andb]; [|sit]. destruct (_ <=? _); [|sit]. oth. intros [].
Qed.

Lemma run_quiet es : forall w i, quiet w i -> ~ In (EKill i) es ->
  quiet (fst (run w es)) i /\ forall t, ~ In (t, OPing i) (snd (run w es)).
Proof.
  induction es as [|e r IH]; intros w i Q N; cbn [Czar_Model.run]; [split; [assumption|intros t []]|].
  destruct (step_quiet w e i Q) as [Q1 O1]; [intros ->; apply N; left; reflexivity|].
  destruct (step w e) as [w1 o]. cbn [fst snd] in *.
  destruct (IH w1 i Q1) as [Q2 O2]; [intro K; apply N; right; assumption|].
  destruct (run w1 r) as [w2 tr]. cbn [fst snd] in *. split; [assumption|].
  intros t K. apply in_app_or in K. destruct K as [K|K]; [|exact (O2 _ K)].
  apply in_map_iff in K. destruct K as (x & E & K). injection E as _ ->. exact (O1 K).
Qed.
End Late.
