(** Within an epoch its user has heard of, a process has handed over the view
    it works with. *)
From Coq Require Import List ZArith Bool Arith Lia.
Import ListNotations.
From Verif Require Import Czar_Model Czar_Spec Czar_Proofs Czar_Step Czar_Events Czar_Members Czar_Views Czar_Ping.
Local Open Scope Z_scope.

Section Told.
Variable drift : Z.
Hypothesis drift0 : 0 <= drift.
Notation Inv := (Inv drift).
Notation step := (step drift).
Notation run := (run drift).

Record toldP (H : list (Z * obs)) (i : nat) (P : proc) : Prop := {
  tp_hash : forall e k c, cHash P = Some (e, k, c) -> e <= vEpoch (cVers P) /\ (e = vEpoch (cVers P) -> k = vWithin (cVers P));
  tp_told : forall t v l, In (t, OUp i v l) H -> vEpoch v = vEpoch (cVers P) ->
            exists t' v' l', In (t', OUp i v' l') H /\ sameVersion v' (cVers P) }.

Definition quietFor (i : nat) (o : list obs) : Prop := forall v l, ~ In (OUp i v l) o.

Lemma told_keep H i P P' w o : toldP H i P -> cHash P' = cHash P -> vEpoch (cVers P') = vEpoch (cVers P) ->
  vWithin (cVers P') = vWithin (cVers P) -> quietFor i o -> toldP (H ++ stamped w o) i P'.
Proof.
  intros [A B] E1 E2 E3 Q. constructor.
  - rewrite E1, E2, E3. exact A.
  - intros t v l K. rewrite E2. intro EE. apply in_app_or in K. destruct K as [K|K].
    + destruct (B _ _ _ K EE) as (t' & v' & l' & K1 & S1 & S2). exists t', v', l'. split; [apply in_or_app; auto|].
      split; congruence.
    + unfold stamped in K. apply in_map_iff in K. destruct K as (x & X & K). injection X as _ ->. destruct (Q _ _ K).
Qed.

Lemma eqbH_vers l v h : eqbH (hashPeerIDs l v) h = true -> fst (fst h) = vEpoch v /\ snd (fst h) = vWithin v.
Proof.
  destruct h as [[e k] [c x]]. unfold eqbH, hashPeerIDs, contentOf. rewrite !andb_true_iff, !Z.eqb_eq. intros (((A & B) & _) & _). cbn. auto.
Qed.

Lemma told_set H i P P0 P' w t v l told o :
  toldP H i P -> cHash P0 = cHash P -> cVers P0 = cVers P -> quietFor i told ->
  setVers t i v l true P0 = Some (P', o) -> forall P2, cHash P2 = cHash P' -> cVers P2 = cVers P' -> toldP (H ++ stamped w (told ++ o)) i P2.
Proof.
  intros [A B] E1 E2 Q SV P2 E3 E4. pose proof (setVers_spec _ _ _ _ _ _ _ _ SV) as (_ & L & EP & _).
  constructor; rewrite ?E3, ?E4, EP; cbn [cHash cVers].
  - intros e k c K. injection K as <- <- _. split; [lia|auto].
  - intros t0 v0 l0 K EE. unfold setVers in SV. destruct (vUntil v <? t); [discriminate|]. destruct (vlt v (cVers P0)); [discriminate|].
    cbv zeta in SV. destruct (match cHash P0 with None => true | Some h' => negb (eqbH (hashPeerIDs l v) h') end) eqn:DF; cbn [andb] in SV; injection SV as _ <-.
    + exists (wNow w), v, l. split; [|split; reflexivity]. apply in_or_app. right. unfold stamped. apply in_map_iff.
      exists (OUp i v l). split; [reflexivity|]. apply in_or_app. right. left. reflexivity.
    + destruct (cHash P0) as [[[e k] c]|] eqn:EH; [|discriminate]. apply negb_false_iff, eqbH_vers in DF. cbn in DF. destruct DF as [-> ->].
      destruct (A _ _ _ (eq_sym E1)) as [A1 A2]. rewrite E2 in L.
      assert (X : vEpoch v = vEpoch (cVers P)) by (unfold vle in L; lia).
      pose proof (A2 X) as Y. rewrite app_nil_r in K.
      apply in_app_or in K. destruct K as [K|K].
      * destruct (B _ _ _ K (eq_trans EE X)) as (t' & v' & l' & K1 & S1 & S2). exists t', v', l'. split; [apply in_or_app; auto|].
        split; congruence.
      * unfold stamped in K. apply in_map_iff in K. destruct K as (x & X1 & K). injection X1 as _ ->. destruct (Q _ _ K).
Qed.

(** A new epoch, or the version kept. *)
Lemma told_new H i P P' w o e u :
  toldP H i P -> (forall t v l, In (t, OUp i v l) H -> vle v (cVers P)) -> quietFor i o ->
  vEpoch (cVers P) <= e -> cVers P' = keyVers e u (cVers P) ->
  (cHash P' = cHash P \/ exists l, cHash P' = Some (hashPeerIDs l (cVers P'))) -> toldP (H ++ stamped w o) i P'.
Proof.
  intros [A B] SE Q LE EV EH. constructor.
  - intros e0 k c K. destruct EH as [EH|[l EH]].
    + rewrite EH in K. destruct (A _ _ _ K) as [A1 A2]. rewrite EV. unfold keyVers. cbn.
      destruct (Z.eqb_spec e (vEpoch (cVers P))) as [X|X]; [split; [lia|intros ->; auto]|split; [lia|intros ->; lia]].
    + rewrite EH in K. injection K as <- <- _. split; [lia|auto].
  - intros t v l K EE. apply in_app_or in K. destruct K as [K|K].
    + rewrite EV in *. unfold keyVers in *. cbn in *. destruct (Z.eqb_spec e (vEpoch (cVers P))) as [X|X].
      * destruct (B _ _ _ K (eq_trans EE X)) as (t' & v' & l' & K1 & S1 & S2). exists t', v', l'. split; [apply in_or_app; auto|].
        unfold sameVersion. cbn. split; congruence.
      * pose proof (SE _ _ _ K) as L. unfold vle in L. lia.
    + unfold stamped in K. apply in_map_iff in K. destruct K as (x & X & K). injection X as _ ->. destruct (Q _ _ K).
Qed.

Lemma handlePing_set now d i args p p' o a : handlePing drift now d i args p = Go (p', o, a) ->
  (o = [] /\ cHash p' = cHash p /\ cVers p' = cVers p) \/
  exists t v l p0, setVers t i v l true p0 = Some (p', o) /\ cHash p0 = cHash p /\ cVers p0 = cVers p.
Proof.
  unfold handlePing. destruct (cState p); try (intro E; injection E as <- <- <-; auto; fail).
  destruct (vUntil (cVers p) <? now); [intro E; injection E as <- <- <-; auto|]. cbv zeta.
  match goal with |- context [expire drift ?t ?q] => destruct (expire drift t q) as [ex h] end.
  match goal with |- match ?n with None => _ | Some _ => _ end = _ -> _ => destruct n as [l|] end.
  - destruct (setVers _ _ _ _ _ _) as [[q o0]|] eqn:SV; [|discriminate]. intro E. injection E as <- <- _. right.
    eexists _, _, _, _. split; [exact SV|]. split; reflexivity.
  - intro E. injection E as <- <- _. left. auto.
Qed.

Definition Told (w : world) (H : list (Z * obs)) : Prop := forall i P, wProcs w i = Some P -> toldP H i P.

Lemma quiet_nil i : quietFor i [].
Proof. intros v l []. Qed.
Lemma quiet_up i j o : (o = [] \/ exists v l, o = [OUp j v l]) -> i <> j -> quietFor i o.
Proof. intros [-> |(v & l & ->)] N v0 l0 K; [destruct K|]. destruct K as [K|[]]. congruence. Qed.

Lemma told_put w w' H i X o : Told w H -> wProcs w' = setProc i X (wProcs w) ->
  (forall j, j <> i -> quietFor j o) -> (forall P, X = Some P -> toldP (H ++ stamped w' o) i P) -> Told w' (H ++ stamped w' o).
Proof.
  intros T E Q K j P EJ. rewrite E in EJ. destruct (Nat.eq_dec j i) as [-> |NE].
  - rewrite setProc_eq in EJ. auto.
  - rewrite setProc_ne in EJ by assumption. eapply told_keep; [exact (T _ _ EJ)|reflexivity|reflexivity|reflexivity|auto].
Qed.
Lemma told_same w w' H o : Told w H -> wProcs w' = wProcs w -> (forall j, quietFor j o) -> Told w' (H ++ stamped w' o).
Proof.
  intros T E Q j P EJ. rewrite E in EJ. eapply told_keep; [exact (T _ _ EJ)|reflexivity|reflexivity|reflexivity|auto].
Qed.

Ltac qn := intros; intros ? ? K; cbn in K; repeat (destruct K as [K|K]; [discriminate|]); destruct K.
Ltac no := solve [match goal with T : Told ?w _ |- _ => apply (told_same w) end; [assumption|reflexivity|qn]].
Ltac kp E := intros ? X; injection X as <-; eapply told_keep; [match goal with T : Told _ _ |- _ => exact (T _ _ E) end|reflexivity|reflexivity|reflexivity|qn].
Ltac put := eapply told_put; [eassumption|reflexivity|qn|].

Lemma step_told w used H e : Inv w used H -> Told w H -> Told (fst (step w e)) (H ++ stamped (fst (step w e)) (snd (step w e))).
Proof.
  intros IV T. pose proof (iv_hist _ _ _ _ IV) as HO.
  destruct e as [d|j nm a|j|j|j|n tm|j d|j|j ok a|j|n d|j d|j|j|j|j]; cbn [Czar_Model.step].
  - no.
  - destruct (existsb (Nat.eqb j) (wUsed w)) eqn:EX; [no|]. put. intros P X. injection X as <-. constructor; [discriminate|].
    intros t v l K _. exfalso. cbn [snd stamped map] in K. rewrite app_nil_r in K.
    destruct (ho_up _ HO _ _ _ _ K) as [nm0 U]. cbn in U. apply (in_map fst) in U. rewrite (iv_used _ _ _ _ IV) in U. cbn in U.
    assert (Y : existsb (Nat.eqb j) (wUsed w) = true) by (apply existsb_exists; exists j; split; [assumption|apply Nat.eqb_refl]). congruence.
  - put. discriminate.
  - destruct (wProcs w j) as [P|] eqn:E; [|no]. destruct (_ && _); [|no]. put. kp E.
  - destruct (wProcs w j) as [P|] eqn:E; [|no]. destruct (_ && _); [|no]. put. kp E.
  - destruct (pick n (wTkts w)) as [t|]; [|no]. destruct (cas drift tm (wLeaf w) t) as [lf r].
    apply (told_same w); [assumption|reflexivity|]. intros k v l K. cbn [snd] in K. destruct r; try destruct K.
    destruct (if wLeaf w then _ else _); [destruct K|destruct K as [K|[]]; discriminate].
  - destruct (wProcs w j) as [P|] eqn:E; [|no]. pose proof (iv_proc _ _ _ _ IV _ _ E) as PO.
    destruct (cWait P) as [|n l|n|n b] eqn:W; try no; (destruct (pick n (wRes w)) as [r|] eqn:EK; [|no]).
    + destruct r as [e u|e u cur|]; cbn [afterCas].
      * destruct (u - wNow w <? enough); [put; kp E|].
        destruct (setVers _ _ _ _ _ _) as [[Q o]|] eqn:SV; [|put; kp E].
        destruct (setVers_spec _ _ _ _ _ _ _ _ SV) as (_ & _ & _ & S4).
        eapply told_put; [eassumption|reflexivity| |].
        { intros k NK. cbn [settle snd]. eapply quiet_up; [|exact NK]. destruct S4 as [-> |[-> _]]; eauto. }
        intros P2 X. injection X as <-. change o with ([] ++ o). eapply told_set; [exact (T _ _ E)| | |apply quiet_nil|exact SV|reflexivity|reflexivity]; reflexivity.
      * destruct (_ && negb (u =? 0)); [put; discriminate|].
        destruct (setVers _ _ _ _ _ _) as [[Q o]|] eqn:SV; [|put; kp E].
        destruct (setVers_spec _ _ _ _ _ _ _ _ SV) as (_ & L & -> & [-> |[_ S4]]); [|discriminate].
        put. intros P2 X. injection X as <-. eapply told_new; [exact (T _ _ E)|exact (po_seen _ _ _ _ PO)|apply quiet_nil| |reflexivity|right; eexists; reflexivity].
        unfold vle, keyVers in L. cbn in L. lia.
      * put. kp E.
    + destruct r as [e u|e u cur|]; cbn [afterRenew]; try (put; kp E).
      destruct (Z.ltb_spec e (vEpoch (cVers (withWait Idle P)))) as [X|X]; [put; discriminate|]. cbn in X. put.
      intros P2 Y. injection Y as <-. destruct (Z.eq_dec e (vEpoch (cVers P))) as [-> |NE].
      * eapply told_keep; [exact (T _ _ E)|reflexivity|reflexivity|reflexivity|qn].
      * assert (SE := po_seen _ _ _ _ PO). cbn in SE. destruct (T _ _ E) as [A B]. constructor; cbn [cHash withVers withWait cVers vEpoch vWithin].
        -- intros e0 k c K. destruct (A _ _ _ K) as [A1 A2]. split; [lia|intros ->; lia].
        -- intros t v l K EE. exfalso. apply in_app_or in K. destruct K as [K|K].
           ++ pose proof (SE _ _ _ K) as L. unfold vle in L. lia.
           ++ cbn in K. destruct K as [K|[]]. discriminate.
  - destruct (wProcs w j) as [P|] eqn:E; [|no]. destruct (cWait P); try no; (put; kp E).
  - destruct (wProcs w j) as [P|] eqn:E; [|no]. destruct (_ && _); [|no]. destruct (lCzar (cList P)); [|put; discriminate].
    destruct (_ || _); (put; kp E).
  - destruct (wProcs w j) as [P|] eqn:E; [|no]. destruct (cConn P) as [[q y]|]; [|no]. destruct (_ && _); [|no]. put. kp E.
  - destruct (pick n (wPings w)) as [g|]; [|no]. destruct (wProcs w (pTo g)) as [P|] eqn:E; [|no].
    destruct (isAm P && negb (isIdle P)); [no|].
    destruct (handlePing _ _ _ _ _ _) as [[[Q o] a]|] eqn:HP; [|put; discriminate].
    assert (QA : forall k, quietFor k (match a with Some (v, l) => [OAns (pTo g) (pFrom g) v l] | None => [] end)).
    { intros k v l K. destruct a as [[v0 l0]|]; [destruct K as [K|[]]; discriminate|destruct K]. }
    assert (OUT : forall P2 w2 o1, toldP (H ++ stamped w2 o1) (pTo g) P2 -> (forall x, In x o1 -> In x (o1 ++ match a with Some (v, l) => [OAns (pTo g) (pFrom g) v l] | None => [] end)) ->
              toldP (H ++ stamped w2 (o1 ++ match a with Some (v, l) => [OAns (pTo g) (pFrom g) v l] | None => [] end)) (pTo g) P2).
    { intros P2 w2 o1 TP _. unfold stamped. rewrite map_app, app_assoc.
      eapply (told_keep _ _ P2); [exact TP|reflexivity|reflexivity|reflexivity|apply QA]. }
    destruct (handlePing_set _ _ _ _ _ _ _ _ HP) as [(-> & E1 & E2)|(t & v & l & p0 & SV & E1 & E2)].
    + eapply told_put; [eassumption|reflexivity| |].
      { intros k _. apply QA. }
      intros P2 X. injection X as <-. eapply told_keep; [exact (T _ _ E)|assumption|congruence|congruence|apply QA].
    + destruct (setVers_spec _ _ _ _ _ _ _ _ SV) as (_ & _ & _ & S4).
      eapply told_put; [eassumption|reflexivity| |].
      { intros k NK v0 l0 K. apply in_app_or in K. destruct K as [K|K]; [|exact (QA _ _ _ K)].
        destruct S4 as [-> |[-> _]]; [destruct K|]. destruct K as [K|[]]. congruence. }
      intros P2 X. injection X as <-. apply OUT; [|intros; apply in_or_app; auto].
      change o with ([] ++ o). eapply told_set; [exact (T _ _ E)|exact E1|exact E2|apply quiet_nil|exact SV|reflexivity|reflexivity].
  - destruct (wProcs w j) as [P|] eqn:E; [|no].
    destruct (cWait P) as [|n l|n|n b] eqn:W; try no. destruct (pick n (wPongs w)) as [r|]; [|no]. destruct b.
    + unfold afterFirst. destruct r as [[v l]|]; [|put; kp E].
      destruct (setVers _ _ _ _ _ _) as [[Q o]|] eqn:SV; [|put; kp E].
      destruct (setVers_spec _ _ _ _ _ _ _ _ SV) as (_ & _ & _ & S4).
      eapply told_put; [eassumption|reflexivity| |].
      { intros k NK. cbn [settle snd]. eapply quiet_up; [|exact NK]. destruct S4 as [-> |[-> _]]; eauto. }
      intros P2 X. injection X as <-. change o with ([] ++ o). eapply told_set; [exact (T _ _ E)| | |apply quiet_nil|exact SV|reflexivity|reflexivity]; reflexivity.
    + unfold afterBeat. destruct r as [[v l]|]; [|put; kp E].
      destruct (getP _ _) as [x|]; [|put; discriminate]. destruct (_ && _); [put; kp E|].
      assert (QT : forall k, quietFor k (if vUntil v =? 0 then [] else [OLease j (eUntil x)])).
      { intros k v0 l0 K. destruct (_ =? _); [destruct K|destruct K as [K|[]]; discriminate]. }
      destruct (setVers _ _ _ _ _ _) as [[Q o]|] eqn:SV.
      * destruct (setVers_spec _ _ _ _ _ _ _ _ SV) as (_ & _ & _ & S4).
        eapply told_put; [eassumption|reflexivity| |].
        { intros k NK v0 l0 K. apply in_app_or in K. destruct K as [K|K]; [exact (QT _ _ _ K)|].
          destruct S4 as [-> |[-> _]]; [destruct K|]. destruct K as [K|[]]. congruence. }
        intros P2 X. injection X as <-. eapply told_set; [exact (T _ _ E)| | |apply QT|exact SV|reflexivity|reflexivity]; reflexivity.
      * eapply told_put; [eassumption|reflexivity|intros; apply QT|].
        intros P2 X. injection X as <-. eapply told_keep; [exact (T _ _ E)|reflexivity|reflexivity|reflexivity|apply QT].
  - destruct (wProcs w j) as [P|] eqn:E; [|no]. destruct (cWait P); try no; (put; kp E).
  - destruct (wProcs w j) as [P|] eqn:E; [|no]. destruct (_ && _); [|no]. put; kp E.
  - destruct (wProcs w j) as [P|] eqn:E; [|no]. destruct (_ && _); [|no].
    destruct (expire drift (wNow w) P) as [[l|] h]; [|put; kp E].
    destruct (setVers _ _ _ _ _ _) as [[Q o]|] eqn:SV; [|put; kp E].
    destruct (setVers_spec _ _ _ _ _ _ _ _ SV) as (_ & _ & _ & S4).
    eapply told_put; [eassumption|reflexivity| |].
    { intros k NK. cbn [settle snd]. eapply quiet_up; [|exact NK]. destruct S4 as [-> |[-> _]]; eauto. }
    intros P2 X. injection X as <-. change o with ([] ++ o). eapply told_set; [exact (T _ _ E)| | |apply quiet_nil|exact SV|reflexivity|reflexivity]; reflexivity.
  - destruct (wProcs w j) as [P|] eqn:E; [|no]. destruct (_ && _); [|no]. put; kp E.
Qed.

Lemma run_told es : forall w used H, Inv w used H -> Told w H -> Told (fst (run w es)) (H ++ snd (run w es)).
Proof.
  induction es as [|e r IH]; intros w used H IV T; cbn [Czar_Model.run]; [rewrite app_nil_r; exact T|].
  destruct (step_Inv drift drift0 _ _ _ e IV) as [used' IV']. pose proof (step_told _ _ _ e IV T) as T'.
  destruct (step w e) as [w1 o]. cbn [fst snd] in *. specialize (IH _ _ _ IV' T').
  destruct (run w1 r) as [w2 tr]. cbn [fst snd] in *. unfold stamped in IH. rewrite <- app_assoc in IH. exact IH.
Qed.

Lemma reach_told es : Told (fst (run start es)) (snd (run start es)).
Proof. apply (run_told es start [] [] (start_Inv drift)). discriminate. Qed.
End Told.
