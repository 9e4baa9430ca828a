(** A czar key that no live process can take any more. *)
From Coq Require Import List ZArith Bool Arith Lia.
Import ListNotations.
From Verif Require Import Czar_Model Czar_Spec Czar_Proofs.
Local Open Scope Z_scope.

Section Dead.
Variable drift : Z.
Variable lf : leaf.
Variable n0 : nat.
Notation step := (step drift).
Notation run := (run drift).

Definition deadP (P : proc) : Prop :=
  cState P <> Am /\ 0 < vEpoch (cVers P) /\ vEpoch (cVers P) <> fEpoch lf /\
  match cWait P with Idle => True | WCas k _ => (n0 <= k)%nat | WRenew k => False | WPing k _ => (n0 <= k)%nat end.

Record Dead (w : world) : Prop := {
  d_leaf : wLeaf w = Some lf;
  d_now : fUntil lf + drift < wNow w;
  d_next : (n0 <= wNext w)%nat;
  d_proc : forall i P, wProcs w i = Some P -> deadP P;
  d_tkt : forall n t, In (n, t) (wTkts w) -> 0 < tPrev t /\ tPrev t <> fEpoch lf;
  d_res : forall n r, In (n, r) (wRes w) -> (n0 <= n)%nat -> r = Lost (fEpoch lf) (fUntil lf + drift) (fVal lf);
  d_pong : forall n a, In (n, a) (wPongs w) -> (n0 <= n)%nat -> a = None }.

Definition mute (x : obs) : Prop := match x with OPing _ | OPanic _ => True | _ => False end.

Lemma dead_put w i X : Dead w -> (forall P, X = Some P -> deadP P) -> Dead (putProc i X w).
Proof.
  intros [A B C D E F G] H. constructor; cbn; try assumption.
  intros j P K. destruct (Nat.eq_dec j i) as [-> |NE]; [rewrite setProc_eq in K; auto|rewrite setProc_ne in K by assumption; eauto].
Qed.
Lemma dead_at w d : Dead w -> Dead (at_ (wNow w + later d) w).
Proof. intros [A B C D E F G]. pose proof (later_pos d). constructor; cbn; try assumption. lia. Qed.
Lemma dead_keep P P' : deadP P -> vEpoch (cVers P') = vEpoch (cVers P) -> cState P' <> Am -> cWait P' = Idle -> deadP P'.
Proof. intros (A & B & C & D) E F G. unfold deadP. rewrite E, G. auto. Qed.

Ltac one D E := intros ? X; injection X as <-; eapply dead_keep; [exact (d_proc _ D _ _ E)|reflexivity| |try reflexivity];
  try (cbn; discriminate).
Ltac sit := solve [split; [assumption|constructor]].

Lemma step_dead w e : Dead w -> (forall i nm a, e <> EStart i nm a) -> Dead (fst (step w e)) /\ Forall mute (snd (step w e)).
Proof.
  intros D NS. destruct e as [d|j nm a|j|j|j|n tm|j d|j|j ok a|j|n d|j d|j|j|j|j]; cbn [Czar_Model.step].
  - split; [apply dead_at; assumption|constructor].
  - destruct (NS _ _ _ eq_refl).
  - split; [apply dead_put; [assumption|discriminate]|constructor].
  - destruct (wProcs w j) as [P|] eqn:E; [|sit]. destruct (isUnknown P && isIdle P); [|sit]. cbn [fst snd]. split; [|constructor].
    pose proof (d_proc _ D _ _ E) as (P1 & P2 & P3 & P4). destruct D as [A B C D1 E1 F G].
    constructor; cbn; try assumption; [lia| | ].
    + intros i Q K. destruct (Nat.eq_dec i j) as [-> |NE]; [|rewrite setProc_ne in K by assumption; eauto].
      rewrite setProc_eq in K. injection K as <-. unfold deadP. cbn. auto.
    + intros n t [K|K]; [injection K as <- <-; cbn; auto|eauto].
  - destruct (wProcs w j) as [P|] eqn:E; [|sit]. pose proof (d_proc _ D _ _ E) as (P1 & _).
    unfold isAm. destruct (cState P); try congruence; cbn [andb]; sit.
  - destruct (pick n (wTkts w)) as [t|] eqn:EK; [|sit]. apply pick_In in EK. destruct (d_tkt _ D _ _ EK) as [T1 T2].
    assert (EC : cas drift tm (wLeaf w) t = (Some lf, Lost (fEpoch lf) (fUntil lf + drift) (fVal lf))).
    { unfold cas. rewrite (d_leaf _ D). destruct (negb _ && negb _); [reflexivity|].
      apply Z.ltb_lt in T1. apply Z.eqb_neq in T2. rewrite T1, T2. reflexivity. }
    rewrite EC. cbn [fst snd]. split; [|constructor]. destruct D as [A B C D1 E1 F G].
    constructor; cbn; try assumption; [reflexivity| |].
    + intros m t' K. apply drop_In in K. eauto.
    + intros m r [K|K] L; [injection K as <- <-; reflexivity|eauto].
  - destruct (wProcs w j) as [P|] eqn:E; [|sit]. pose proof (d_proc _ D _ _ E) as (P1 & P2 & P3 & P4).
    destruct (cWait P) as [|n l|n|n b] eqn:W; try sit; [|destruct P4].
    destruct (pick n (wRes w)) as [r|] eqn:EK; [|sit]. apply pick_In in EK. rewrite (d_res _ D _ _ EK P4). cbn [afterCas].
    destruct (_ && negb (_ =? 0)).
    + cbn. split; [apply dead_put; [apply dead_at; assumption|discriminate]|repeat constructor].
    + unfold setVers. cbn [keyVers vUntil]. pose proof (d_now _ D). pose proof (later_pos d).
      destruct (Z.ltb_spec (fUntil lf + drift) (wNow w + later d)); [|lia]. cbn [settle fst snd].
      split; [|constructor]. apply dead_put; [apply dead_at; assumption|]. one D E.
  - destruct (wProcs w j) as [P|] eqn:E; [|sit]. destruct (cWait P); try sit; (split; [|constructor]); cbn;
      (apply dead_put; [assumption|]); one D E.
  - destruct (wProcs w j) as [P|] eqn:E; [|sit]. pose proof (d_proc _ D _ _ E) as (P1 & P2 & P3 & P4).
    destruct (isNot P) eqn:N; cbn [andb]; [|sit]. destruct (isIdle P) eqn:I; cbn [andb]; [|sit].
    destruct (match cConn P with None => true | _ => false end); [|sit].
    destruct (lCzar (cList P)) as [c|].
    2:{ cbn. split; [apply dead_put; [assumption|discriminate]|repeat constructor]. }
    destruct (_ || _).
    + split; [|constructor]. cbn. apply dead_put; [assumption|]. one D E. unfold isIdle in I. cbn. destruct (cWait P); congruence.
    + cbn [fst snd]. split; [|repeat constructor]. destruct D as [A B C D1 E1 F G].
      constructor; cbn; try assumption; [lia|].
      intros i Q K. destruct (Nat.eq_dec i j) as [-> |NE]; [|rewrite setProc_ne in K by assumption; eauto].
      rewrite setProc_eq in K. injection K as <-. unfold deadP. cbn. auto.
  - destruct (wProcs w j) as [P|] eqn:E; [|sit]. pose proof (d_proc _ D _ _ E) as (P1 & P2 & P3 & P4).
    destruct (cConn P) as [[q y]|]; [|sit]. destruct (_ && _); [|sit]. cbn [fst snd]. split; [|repeat constructor].
    destruct D as [A B C D1 E1 F G]. constructor; cbn; try assumption; [lia|].
    intros i Q K. destruct (Nat.eq_dec i j) as [-> |NE]; [|rewrite setProc_ne in K by assumption; eauto].
    rewrite setProc_eq in K. injection K as <-. unfold deadP. cbn. auto.
  - destruct (pick n (wPings w)) as [g|]; [|sit]. destruct (wProcs w (pTo g)) as [P|] eqn:E; [|sit].
    pose proof (d_proc _ D _ _ E) as (P1 & P2 & P3 & P4).
    destruct (isAm P && negb (isIdle P)); [sit|].
    assert (HP : handlePing drift (wNow w) (later d) (pTo g) (pArgs g) P = Go (P, [], None)) by (unfold handlePing; destruct (cState P); congruence).
    rewrite HP. cbn [fst snd app]. split; [|constructor]. pose proof (later_pos d). destruct D as [A B C D1 E1 F G].
    constructor; cbn; try assumption; [lia| |].
    + intros i Q K. destruct (Nat.eq_dec i (pTo g)) as [-> |NE]; [|rewrite setProc_ne in K by assumption; eauto].
      rewrite setProc_eq in K. injection K as <-. unfold deadP. auto.
    + intros m a [K|K] L; [injection K as <- <-; reflexivity|eauto].
  - destruct (wProcs w j) as [P|] eqn:E; [|sit]. pose proof (d_proc _ D _ _ E) as (P1 & P2 & P3 & P4).
    destruct (cWait P) as [|n l|n|n b] eqn:W; try sit. destruct (pick n (wPongs w)) as [r|] eqn:EK; [|sit].
    apply pick_In in EK. rewrite (d_pong _ D _ _ EK P4).
    destruct b; cbn; (split; [|constructor]); (apply dead_put; [apply dead_at; assumption|]); one D E.
  - destruct (wProcs w j) as [P|] eqn:E; [|sit]. destruct (cWait P); try sit; (split; [|constructor]); cbn;
      (apply dead_put; [assumption|]); one D E.
  - destruct (wProcs w j) as [P|] eqn:E; [|sit]. destruct (isNot P && isIdle P) eqn:I; cbn [andb]; [|sit].
    apply andb_true_iff in I. destruct I as [_ I]. destruct (_ && _); [|sit]. split; [|constructor]. cbn. apply dead_put; [assumption|].
    one D E. unfold isIdle in I. cbn. destruct (cWait P); congruence.
  - destruct (wProcs w j) as [P|] eqn:E; [|sit]. pose proof (d_proc _ D _ _ E) as (P1 & _).
    unfold isAm. destruct (cState P); try congruence; cbn [andb]; sit.
  - destruct (wProcs w j) as [P|] eqn:E; [|sit]. pose proof (d_proc _ D _ _ E) as (P1 & _).
    unfold isAm. destruct (cState P); try congruence; cbn [andb]; sit.
Qed.

Lemma run_dead es : forall w, Dead w -> (forall i nm a, ~ In (EStart i nm a) es) ->
  Dead (fst (run w es)) /\ Forall (fun x => mute (snd x)) (snd (run w es)).
Proof.
  induction es as [|e r IH]; intros w Q N; cbn [Czar_Model.run]; [split; [assumption|constructor]|].
  destruct (step_dead w e Q) as [Q1 O1]; [intros i nm a ->; apply (N i nm a); left; reflexivity|].
  destruct (step w e) as [w1 o]. cbn [fst snd] in *.
  destruct (IH w1 Q1) as [Q2 O2]; [intros i nm a K; apply (N i nm a); right; assumption|].
  destruct (run w1 r) as [w2 tr]. cbn [fst snd] in *. split; [assumption|].
  apply Forall_app. split; [|assumption]. apply Forall_forall. intros x K. apply in_map_iff in K. destruct K as (y & <- & K).
  rewrite Forall_forall in O1. exact (O1 _ K).
Qed.
End Dead.
