(** Takeovers, panics, the pinger's own entry, the next heartbeat. *)
From Coq Require Import List ZArith Bool Arith Lia.
Import ListNotations.
From Verif Require Import Czar_Model Czar_Spec Czar_Proofs Czar_Step Czar_Events Czar_Members Czar_Views Czar_Ping Czar_Runs Czar_Late.
Local Open Scope Z_scope.

Section More.
Variable drift : Z.
Hypothesis drift0 : 0 <= drift.
Notation Inv := (Inv drift).
Notation step := (step drift).
Notation run := (run drift).

(** *** Taking over. *)
Lemma takeover w used H i P :
  Inv w used H -> wProcs w i = Some P -> cState P = Unknown -> cWait P = Idle ->
  (forall l, wLeaf w = Some l -> fUntil l + drift < wNow w /\ (vEpoch (cVers P) = 0 \/ vEpoch (cVers P) = fEpoch l)) ->
  acts (fst (run w [ECas i; EApply (wNext w) (wNow w); EReply i 0])) i.
Proof.
  intros IV E S I L. pose proof (iv_hist _ _ _ _ IV) as HO. pose proof (iv_proc _ _ _ _ IV _ _ E) as PO.
  pose proof (ho_now _ HO) as N1. cbn in N1.
  assert (X : exists e, cas drift (wNow w) (wLeaf w) (Tkt i (cName P) (contend i P) (vEpoch (cVers P))) =
              (Some (Leaf (cName P) i (wNow w + czarLease) e (contend i P)), Won e (wNow w + czarLease)) /\
              vEpoch (cVers P) <= e).
  { unfold cas. cbn [tPrev tName tPeer tVal]. destruct (wLeaf w) as [l|] eqn:EL.
    - destruct (L _ eq_refl) as [L1 L2].
      destruct (ho_leaf _ HO _ EL) as (OW & _). destruct (ho_own _ HO _ _ OW) as (L3 & _).
      destruct (Z.ltb_spec (fUntil l + drift) (wNow w)); [|lia]. cbn [negb andb].
      assert (X : (0 <? vEpoch (cVers P)) && negb (vEpoch (cVers P) =? fEpoch l) = false).
      { destruct L2 as [-> | ->]; [reflexivity|]. rewrite Z.eqb_refl. apply andb_false_r. }
      rewrite X. clear X. destruct (Z.leb_spec (wNow w + czarLease) (fUntil l)); [unfold czarLease in *; lia|].
      destruct (Nat.eqb (fName l) (cName P) && Nat.eqb (fPeer l) i); [eexists; split; [reflexivity|lia]|].
      destruct (Z.ltb_spec 0 (wNow w - (fUntil l + drift))); [|lia]. eexists; split; [reflexivity|lia].
    - assert (Z0 : vEpoch (cVers P) = 0).
      { destruct (po_epoch _ _ _ _ PO) as [?|[k O]]; [assumption|]. destruct (ho_own _ HO _ _ O) as (_ & _ & l & K & _). cbn in K. congruence. }
      rewrite Z0. cbn. eexists; split; [reflexivity|lia]. }
  destruct X as (e & X & LE).
  cbn [Czar_Model.run Czar_Model.step]. unfold isUnknown, isIdle. rewrite E, S, I. cbn [andb].
  cbn [wTkts pick]. rewrite Nat.eqb_refl. cbn [wLeaf]. rewrite X. cbn [wProcs]. rewrite setProc_eq.
  cbn [cWait withWait]. cbn [wRes pick]. rewrite Nat.eqb_refl. cbn [afterCas wNow].
  destruct (Z.ltb_spec (wNow w + czarLease - wNow w) enough); [unfold czarLease, enough in *; lia|].
  unfold setVers. cbn [keyVers vUntil]. replace (later 0) with 0 by reflexivity.
  destruct (Z.ltb_spec (wNow w + czarLease) (wNow w + 0)); [unfold czarLease in *; lia|].
  assert (V : vlt (keyVers e (wNow w + czarLease) (cVers P)) (cVers P) = false).
  { apply vlt_false. unfold vle, keyVers. cbn. destruct (Z.eqb_spec e (vEpoch (cVers P))); [right; lia|left; lia]. }
  cbn [cVers withState withWait]. first [rewrite V|unfold keyVers in V; rewrite V]. cbn [settle].
  unfold acts. cbn. eexists. rewrite setProc_eq. split; [reflexivity|]. cbn. split; [reflexivity|]. unfold czarLease in *. lia.
Qed.

(** *** Which steps can panic. *)
Lemma handlePing_crash now d i args p : handlePing drift now d i args p = Crash -> now <= vUntil (cVers p) < now + d.
Proof.
  unfold handlePing. destruct (cState p); try discriminate. destruct (Z.ltb_spec (vUntil (cVers p)) now); [discriminate|]. cbv zeta.
  set (upd := match getP (dName args) (lPeers (cList p)) with None => _ | Some _ => _ end).
  set (p1 := withHeard _ (withList _ p)). destruct (expire drift (now + d) p1) as [ex h].
  set (next := match ex with Some l => _ | None => _ end). destruct next as [l|]; [|discriminate].
  destruct (setVers _ _ _ _ _ _) as [[q o0]|] eqn:SV; [discriminate|]. intros _.
  unfold setVers in SV. cbn [bump vUntil cVers withHeard withList p1] in SV.
  destruct (Z.ltb_spec (vUntil (cVers p)) (now + d)); [lia|].
  assert (V : vlt (bump (cVers (withHeard h p1))) (cVers (withHeard h p1)) = false) by (apply vlt_false; unfold vle; cbn; lia).
  cbn in V, SV. rewrite V in SV. discriminate.
Qed.

Lemma settle_panic w i j r : In (OPanic i) (snd (settle j r w)) ->
  (forall p o, r = Go (p, o) -> ~ In (OPanic i) o) -> i = j /\ r = Crash.
Proof.
  destruct r as [[p o]|]; cbn; intros K N; [destruct (N _ _ eq_refl K)|]. destruct K as [K|[]]. injection K as ->. auto.
Qed.

Lemma set_calm now j v l up p p' o i : setVers now j v l up p = Some (p', o) -> ~ In (OPanic i) o.
Proof.
  intros SV K. destruct (setVers_spec _ _ _ _ _ _ _ _ SV) as (_ & _ & _ & [-> |[-> _]]); [destruct K|destruct K as [K|[]]; discriminate].
Qed.

Lemma panic_kind w used H e i : Inv w used H -> In (OPanic i) (snd (step w e)) -> panics w e i.
Proof.
  intros IV. pose proof (iv_hist _ _ _ _ IV) as HO.
  destruct e as [d|j nm a|j|j|j|n tm|j d|j|j ok a|j|n d|j d|j|j|j|j]; cbn [Czar_Model.step].
  - intros [].
  - destruct (existsb _ _); intros [].
  - intros [].
  - destruct (wProcs w j); [destruct (_ && _)|]; intros [].
  - destruct (wProcs w j); [destruct (_ && _)|]; intros [].
  - destruct (pick n (wTkts w)) as [t|]; [|intros []]. destruct (cas drift tm (wLeaf w) t) as [lf r]. cbn [snd].
    destruct r; try (intros []; fail). destruct (if wLeaf w then _ else _); [intros []|intros [K|[]]; discriminate].
  - destruct (wProcs w j) as [P|] eqn:E; [|intros []].
    destruct (cWait P) as [|n l|n|n b] eqn:W; try (intros []; fail); (destruct (pick n (wRes w)) as [r|] eqn:EK; [|intros []]); intro K;
      apply settle_panic in K.
    + destruct K as [-> K]. destruct r as [e u|e u cur|]; cbn [afterCas] in K; [| |discriminate].
      * destruct (u - wNow w <? enough); [discriminate|]. destruct (setVers _ _ _ _ _ _); discriminate.
      * destruct (lCzar cur) as [c|] eqn:EC.
        -- cbn [cName withWait] in K. destruct (Nat.eqb_spec (dName c) (cName P)) as [EN|EN]; cbn [andb] in K.
           ++ left. exists d, P, n, l, e, u, cur. repeat split; try assumption. exists c. auto.
           ++ destruct (setVers _ _ _ _ _ _); discriminate.
        -- cbn [andb] in K. destruct (setVers _ _ _ _ _ _); discriminate.
    + intros p o EO. destruct r as [e u|e u cur|]; cbn [afterCas] in EO; [| |injection EO as <- <-; intros []].
      * destruct (u - wNow w <? enough); [injection EO as <- <-; intros []|].
        destruct (setVers _ _ _ _ _ _) as [[P' o']|] eqn:SV; injection EO as <- <-; [eapply set_calm; exact SV|intros []].
      * destruct (_ && negb (u =? 0)); [discriminate|].
        destruct (setVers _ _ _ _ _ _) as [[P' o']|] eqn:SV; injection EO as <- <-; [eapply set_calm; exact SV|intros []].
    + destruct K as [-> K]. destruct r as [e u|e u cur|]; cbn [afterRenew] in K; try discriminate.
      destruct (iv_res _ _ _ _ IV _ _ (pick_In _ _ _ EK)) as (_ & _ & _ & R). destruct (R _ _ E (or_intror W)) as (_ & R1 & _).
      cbn [cVers withWait] in K. destruct (Z.ltb_spec e (vEpoch (cVers P))); [lia|discriminate].
    + intros p o EO. destruct r as [e u|e u cur|]; cbn [afterRenew] in EO; try (injection EO as <- <-; intros []; fail).
      destruct (e <? _); [discriminate|]. injection EO as <- <-. intros [K1|[]]; discriminate.
  - destruct (wProcs w j) as [P|]; [destruct (cWait P)|]; intros [].
  - destruct (wProcs w j) as [P|] eqn:E; [|intros []]. destruct (_ && _); [|intros []].
    destruct (lCzar (cList P)) as [c|] eqn:EC.
    + destruct (_ || _); [intros []|intros [K|[]]; discriminate].
    + intros [K|[]]. injection K as ->. right. right. right. exists ok, a, P. repeat split; [assumption|].
      exact (po_not _ _ _ _ (iv_proc _ _ _ _ IV _ _ E) EC).
  - destruct (wProcs w j) as [P|]; [|intros []]. destruct (cConn P) as [[q a]|]; [|intros []]. destruct (_ && _); [|intros []].
    intros [K|[]]; discriminate.
  - destruct (pick n (wPings w)) as [g|] eqn:EG; [|intros []]. destruct (wProcs w (pTo g)) as [P|] eqn:E; [|intros []].
    destruct (isAm P && negb (isIdle P)); [intros []|].
    destruct (handlePing _ _ _ _ _ _) as [[[Q o] a]|] eqn:HP.
    + cbn [snd]. intro K. exfalso. apply in_app_or in K. destruct K as [K|K].
      * destruct (handlePing_spec _ _ _ _ _ _ _ _ _ HP) as [(_ & -> & _)|(_ & _ & l & _ & _ & _ & _ & _ & _ & _ & _ & CASES)]; [destruct K|].
        destruct CASES as [(-> & _)|(_ & _ & [-> | ->] & _)]; try (destruct K; fail). destruct K as [K|[]]; discriminate.
      * destruct a as [[v l]|]; [|destruct K]. destruct K as [K|[]]; discriminate.
    + intros [K|[]]. injection K as <-. right. left. exists n, d, P, g. repeat split; try assumption;
        apply handlePing_crash in HP; unfold later in HP; lia.
  - destruct (wProcs w j) as [P|] eqn:E; [|intros []]. destruct (cWait P) as [|n l|n|n b] eqn:W; try (intros []; fail).
    destruct (pick n (wPongs w)) as [r|] eqn:EK; [|intros []]. intro K. apply settle_panic in K.
    + destruct K as [-> K]. destruct b.
      * unfold afterFirst in K. destruct r as [[v l]|]; [|discriminate]. destruct (setVers _ _ _ _ _ _) as [[? ?]|]; discriminate.
      * unfold afterBeat in K. destruct r as [[v l]|]; [|discriminate]. cbn [cName withWait] in K.
        destruct (getP (cName P) (lPeers l)) as [x|] eqn:G.
        -- destruct (_ && _); [discriminate|]. destruct (setVers _ _ _ _ _ _) as [[? ?]|]; discriminate.
        -- right. right. left. exists d, P, n, v, l. repeat split; try assumption. rewrite getP_None in G. exact G.
    + intros p o EO. destruct b.
      * unfold afterFirst in EO. destruct r as [[v l]|]; [|injection EO as <- <-; intros []].
        destruct (setVers _ _ _ _ _ _) as [[P' o']|] eqn:SV; injection EO as <- <-; [eapply set_calm; exact SV|intros []].
      * unfold afterBeat in EO. destruct r as [[v l]|]; [|injection EO as <- <-; intros []].
        destruct (getP _ _) as [x|]; [|discriminate]. destruct (_ && _); [injection EO as <- <-; intros []|].
        destruct (setVers _ _ _ _ _ _) as [[P' o']|] eqn:SV; injection EO as <- <-.
        -- intro K1. apply in_app_or in K1. destruct K1 as [K1|K1]; [|exact (set_calm _ _ _ _ _ _ _ _ _ SV K1)].
           destruct (_ =? _); [destruct K1|destruct K1 as [K1|[]]; discriminate].
        -- destruct (_ =? _); [intros []|intros [K1|[]]; discriminate].
  - destruct (wProcs w j) as [P|]; [destruct (cWait P)|]; intros [].
  - destruct (wProcs w j) as [P|]; [destruct (_ && _)|]; intros [].
  - destruct (wProcs w j) as [P|]; [|intros []]. destruct (_ && _); [|intros []].
    destruct (expire drift (wNow w) P) as [[l|] h]; [|intros []].
    destruct (setVers _ _ _ _ _ _) as [[P' o']|] eqn:SV; [|intros []]. cbn. intro K. destruct (set_calm _ _ _ _ _ _ _ _ _ SV K).
  - destruct (wProcs w j) as [P|]; [destruct (_ && _)|]; intros [].
Qed.

(** *** The pinger in the answer. *)
Lemma changed_false a b : changed a b = false -> a = b.
Proof.
  unfold changed. intro E. apply negb_false_iff, andb_true_iff in E. destruct E as [E E3]. apply andb_true_iff in E. destruct E as [E1 E2].
  apply Nat.eqb_eq in E1, E2, E3. destruct a, b. cbn in *. congruence.
Qed.

Lemma expire_some now p l h : expire drift now p = (Some l, h) ->
  (exists x, In x (lPeers (cList p)) /\ absent l (dName (eDet x))) /\
  (forall y, In y (lPeers (cList p)) -> (forall g, In g (lPeers (cList p)) -> dName (eDet g) = dName (eDet y) -> due drift now p g = false) -> In y (lPeers l)).
Proof.
  unfold expire. destruct (filter (due drift now p) (lPeers (cList p))) as [|x r] eqn:F; [discriminate|].
  intro E. assert (EL : l = ML (lCzar (cList p)) (fold_left (fun l e => delP (dName (eDet e)) l) (x :: r) (lPeers (cList p)))) by congruence.
  rewrite EL. clear E EL l h. split.
  - exists x. split.
    + assert (K : In x (filter (due drift now p) (lPeers (cList p)))) by (rewrite F; left; reflexivity). apply filter_In in K. tauto.
    + intros e K EN. cbn [lPeers] in K. apply folddel_In in K. destruct K as [_ K]. apply (K x); [left; reflexivity|assumption].
  - intros y Y NG. cbn [lPeers]. apply folddel_In. split; [assumption|]. intros g K EN.
    rewrite <- F in K. apply filter_In in K. destruct K as [K1 K2]. rewrite (NG g K1 (eq_sym EN)) in K2. discriminate.
Qed.

Lemma pinger now d i args p p' o v l :
  handlePing drift now d i args p = Go (p', o, Some (v, l)) -> 0 < now -> 0 <= d <= memberLease -> NoDup (names (lPeers (cList p))) ->
  leased l (dName args) (now + memberLease) \/
  ((forall x, In x (lPeers (cList p)) -> eDet x <> args) /\
   exists x, In x (lPeers (cList p)) /\ absent l (dName (eDet x))).
Proof.
  unfold handlePing. destruct (cState p); try discriminate. destruct (vUntil (cVers p) <? now); [discriminate|]. cbv zeta.
  intros E N0 D ND.
  assert (NEW : leased (ML (lCzar (cList p)) (setP (Plus args (now + memberLease)) (lPeers (cList p)))) (dName args) (now + memberLease)).
  { exists (Plus args (now + memberLease)). split; [|split; reflexivity]. cbn. unfold setP. apply insP_In. auto. }
  destruct (getP (dName args) (lPeers (cList p))) as [x|] eqn:G; [destruct (changed (eDet x) args) eqn:CH|].
  - match type of E with context [expire drift ?t ?q] => destruct (expire drift t q) as [[l0|] h] eqn:EX end.
    + destruct (setVers _ _ _ _ _ _) as [[q o0]|] eqn:SV; [|discriminate]. injection E as <- <- <- <-.
      destruct (setVers_spec _ _ _ _ _ _ _ _ SV) as (_ & _ & -> & _). cbn [cList]. right. split.
      * intros y Y EY. assert (K : getP (dName (eDet y)) (lPeers (cList p)) = Some y) by (apply getP_uniq; assumption).
        rewrite EY, G in K. injection K as <-. rewrite EY in CH. unfold changed in CH. rewrite !Nat.eqb_refl in CH. discriminate.
      * destruct (expire_some _ _ _ _ EX) as [K _]. exact K.
    + destruct (setVers _ _ _ _ _ _) as [[q o0]|] eqn:SV; [|discriminate]. injection E as <- <- <- <-.
      destruct (setVers_spec _ _ _ _ _ _ _ _ SV) as (_ & _ & -> & _). left. exact NEW.
  - apply changed_false in CH. pose proof (getP_renew_some _ (dName args) (now + memberLease) _ _ G) as G1. rewrite Nat.eqb_refl in G1.
    destruct (getP_In _ _ _ G1) as [I1 I2]. cbn [eDet] in I2.
    match type of E with context [expire drift ?t ?q] => destruct (expire drift t q) as [[l0|] h] eqn:EX end.
    + destruct (setVers _ _ _ _ _ _) as [[q o0]|] eqn:SV; [|discriminate]. injection E as <- <- <- <-.
      destruct (setVers_spec _ _ _ _ _ _ _ _ SV) as (_ & _ & -> & _). cbn [cList]. left.
      exists (Plus (eDet x) (now + memberLease)). split; [|split; [exact I2|reflexivity]].
      destruct (expire_some _ _ _ _ EX) as [_ K]. apply K; [exact I1|]. cbn [eDet].
      intros g KG EG. unfold due. cbn [cHeard withHeard withList cName cT0]. rewrite EG, I2.
      assert (HR : heardAt (dName args) (hear (cName p) now (hear (dName args) now (cHeard p))) = Some now).
      { cbn. rewrite Nat.eqb_refl. destruct (Nat.eqb (cName p) (dName args)); reflexivity. }
      rewrite HR.
      assert (UG : eUntil g = now + memberLease).
      { cbn in KG. unfold renewP in KG. apply in_map_iff in KG. destruct KG as (z & <- & _).
        destruct (Nat.eqb_spec (dName (eDet z)) (dName args)); [reflexivity|congruence]. }
      rewrite UG. destruct (Z.eqb_spec (now + memberLease) 0); [unfold memberLease in *; lia|].
      destruct (Z.ltb_spec memberLease (now + d - now)); [lia|]. apply andb_false_r.
    + injection E as <- <- <- <-. left. exists (Plus (eDet x) (now + memberLease)). split; [exact I1|split; [exact I2|reflexivity]].
  - match type of E with context [expire drift ?t ?q] => destruct (expire drift t q) as [[l0|] h] eqn:EX end.
    + destruct (setVers _ _ _ _ _ _) as [[q o0]|] eqn:SV; [|discriminate]. injection E as <- <- <- <-.
      destruct (setVers_spec _ _ _ _ _ _ _ _ SV) as (_ & _ & -> & _). cbn [cList]. right. split.
      * intros y Y EY. rewrite getP_None in G. apply (G _ Y). congruence.
      * destruct (expire_some _ _ _ _ EX) as [K _]. exact K.
    + destruct (setVers _ _ _ _ _ _) as [[q o0]|] eqn:SV; [|discriminate]. injection E as <- <- <- <-.
      destruct (setVers_spec _ _ _ _ _ _ _ _ SV) as (_ & _ & -> & _). left. exact NEW.
Qed.

(** *** The next heartbeat. *)
Definition linkP (P : proc) : Prop := forall n b, cWait P = WPing n b -> cState P = Not /\ cConn P <> None.
Definition link (w : world) : Prop := forall i P, wProcs w i = Some P -> linkP P.

Lemma link_put w w' i X : link w -> wProcs w' = setProc i X (wProcs w) -> (forall P, X = Some P -> linkP P) -> link w'.
Proof.
  intros L E K j P. rewrite E. destruct (Nat.eq_dec j i) as [-> |NE]; [rewrite setProc_eq; auto|rewrite setProc_ne by assumption; apply L].
Qed.
Lemma link_same w w' : link w -> wProcs w' = wProcs w -> link w'.
Proof. intros L E j P. rewrite E. apply L. Qed.
Lemma link_idle P : (forall n b, cWait P <> WPing n b) -> linkP P.
Proof. intros N n b E. destruct (N _ _ E). Qed.

Ltac idl := intros ? X; injection X as <-; apply link_idle; intros; cbn; discriminate.

Lemma step_link w e : link w -> link (fst (step w e)).
Proof.
  intro L. destruct e as [d|j nm a|j|j|j|n tm|j d|j|j ok a|j|n d|j d|j|j|j|j]; cbn [Czar_Model.step].
  - exact L.
  - destruct (existsb _ _); [exact L|]. eapply link_put; [exact L|reflexivity|]. idl.
  - eapply link_put; [exact L|reflexivity|]. discriminate.
  - destruct (wProcs w j) as [P|] eqn:E; [|exact L]. destruct (_ && _); [|exact L]. eapply link_put; [exact L|reflexivity|]. idl.
  - destruct (wProcs w j) as [P|] eqn:E; [|exact L]. destruct (_ && _); [|exact L]. eapply link_put; [exact L|reflexivity|]. idl.
  - destruct (pick n (wTkts w)); [|exact L]. destruct (cas _ _ _ _). exact L.
  - destruct (wProcs w j) as [P|] eqn:E; [|exact L].
    destruct (cWait P) as [|n l|n|n b] eqn:W; try exact L; (destruct (pick n (wRes w)) as [r|]; [|exact L]).
    + destruct r as [e u|e u cur|]; cbn [afterCas].
      * destruct (u - wNow w <? enough); [eapply link_put; [exact L|reflexivity|idl]|].
        destruct (setVers _ _ _ _ _ _) as [[P' o]|] eqn:SV; (eapply link_put; [exact L|reflexivity|]); [|idl].
        destruct (setVers_spec _ _ _ _ _ _ _ _ SV) as (_ & _ & -> & _). idl.
      * destruct (_ && negb (u =? 0)); [eapply link_put; [exact L|reflexivity|discriminate]|].
        destruct (setVers _ _ _ _ _ _) as [[P' o]|] eqn:SV; (eapply link_put; [exact L|reflexivity|]); [|idl].
        destruct (setVers_spec _ _ _ _ _ _ _ _ SV) as (_ & _ & -> & _). idl.
      * eapply link_put; [exact L|reflexivity|idl].
    + destruct r as [e u|e u cur|]; cbn [afterRenew]; try (eapply link_put; [exact L|reflexivity|idl]).
      destruct (e <? _); (eapply link_put; [exact L|reflexivity|]); [discriminate|idl].
  - destruct (wProcs w j) as [P|] eqn:E; [|exact L]. destruct (cWait P); try exact L; (eapply link_put; [exact L|reflexivity|idl]).
  - destruct (wProcs w j) as [P|] eqn:E; [|exact L]. destruct (isNot P) eqn:N; cbn [andb]; [|exact L].
    destruct (isIdle P) eqn:I; cbn [andb]; [|exact L]. destruct (match cConn P with None => true | _ => false end); [|exact L].
    destruct (lCzar (cList P)); [|eapply link_put; [exact L|reflexivity|discriminate]].
    destruct (_ || _); (eapply link_put; [exact L|reflexivity|]); intros Q X; injection X as <-.
    + apply link_idle. intros n b. cbn. unfold isIdle in I. destruct (cWait P); discriminate.
    + intros n b _. cbn. unfold isNot in N. destruct (cState P); try discriminate. split; [reflexivity|discriminate].
  - destruct (wProcs w j) as [P|] eqn:E; [|exact L]. destruct (cConn P) as [[q y]|] eqn:C; [|exact L].
    destruct (isNot P) eqn:N; cbn [andb]; [|exact L]. destruct (_ && _); [|exact L].
    eapply link_put; [exact L|reflexivity|]. intros Q X; injection X as <-. intros n b _. cbn.
    unfold isNot in N. destruct (cState P); try discriminate. split; [reflexivity|congruence].
  - destruct (pick n (wPings w)) as [g|]; [|exact L]. destruct (wProcs w (pTo g)) as [P|] eqn:E; [|exact L].
    destruct (isAm P && negb (isIdle P)) eqn:AI; [exact L|].
    destruct (handlePing _ _ _ _ _ _) as [[[Q o] a]|] eqn:HP; (eapply link_put; [exact L|reflexivity|]); [|discriminate].
    intros R X; injection X as <-.
    assert (ID : cState P = Am -> cWait P = Idle).
    { intro A. unfold isAm, isIdle in AI. rewrite A in AI. destruct (cWait P); cbn in AI; congruence. }
    destruct (handlePing_spec _ _ _ _ _ _ _ _ _ HP) as [(_ & _ & [-> |[A ->]])|(A & _ & l & _ & _ & _ & _ & _ & EW & _)].
    + exact (L _ _ E).
    + apply link_idle. intros. cbn. rewrite (ID A). discriminate.
    + apply link_idle. intros. rewrite EW, (ID A). discriminate.
  - destruct (wProcs w j) as [P|] eqn:E; [|exact L]. destruct (cWait P) as [|n l|n|n b] eqn:W; try exact L.
    destruct (pick n (wPongs w)) as [r|]; [|exact L]. destruct b.
    + unfold afterFirst. destruct r as [[v l]|]; [|eapply link_put; [exact L|reflexivity|idl]].
      destruct (setVers _ _ _ _ _ _) as [[P' o]|] eqn:SV; (eapply link_put; [exact L|reflexivity|]); [|idl].
      destruct (setVers_spec _ _ _ _ _ _ _ _ SV) as (_ & _ & -> & _). idl.
    + unfold afterBeat. destruct r as [[v l]|]; [|eapply link_put; [exact L|reflexivity|idl]].
      destruct (getP _ _) as [x|]; [|eapply link_put; [exact L|reflexivity|discriminate]].
      destruct (_ && _); [eapply link_put; [exact L|reflexivity|idl]|].
      destruct (setVers _ _ _ _ _ _) as [[P' o]|] eqn:SV; (eapply link_put; [exact L|reflexivity|]); [|idl].
      destruct (setVers_spec _ _ _ _ _ _ _ _ SV) as (_ & _ & -> & _). idl.
  - destruct (wProcs w j) as [P|] eqn:E; [|exact L]. destruct (cWait P); try exact L; (eapply link_put; [exact L|reflexivity|idl]).
  - destruct (wProcs w j) as [P|] eqn:E; [|exact L]. destruct (isNot P) eqn:N; cbn [andb]; [|exact L].
    destruct (isIdle P) eqn:I; cbn [andb]; [|exact L]. destruct (_ && _); [|exact L].
    eapply link_put; [exact L|reflexivity|]. intros Q X; injection X as <-.
    apply link_idle. intros n b. cbn. unfold isIdle in I. destruct (cWait P); discriminate.
  - destruct (wProcs w j) as [P|] eqn:E; [|exact L]. destruct (isAm P) eqn:N; cbn [andb]; [|exact L].
    destruct (isIdle P) eqn:I; cbn [andb]; [|exact L].
    assert (W : forall n b, cWait P <> WPing n b) by (intros n b; unfold isIdle in I; destruct (cWait P); discriminate).
    destruct (expire drift (wNow w) P) as [[l|] h].
    + destruct (setVers _ _ _ _ _ _) as [[P' o]|] eqn:SV; (eapply link_put; [exact L|reflexivity|]).
      * destruct (setVers_spec _ _ _ _ _ _ _ _ SV) as (_ & _ & -> & _). intros Q X; injection X as <-. apply link_idle. exact W.
      * intros Q X; injection X as <-. apply link_idle. exact W.
    + eapply link_put; [exact L|reflexivity|]. intros Q X; injection X as <-. apply link_idle. exact W.
  - destruct (wProcs w j) as [P|] eqn:E; [|exact L]. destruct (isAm P) eqn:N; cbn [andb]; [|exact L].
    destruct (isIdle P) eqn:I; cbn [andb]; [|exact L]. destruct (_ <=? _); [|exact L].
    eapply link_put; [exact L|reflexivity|]. intros Q X; injection X as <-.
    apply link_idle. intros n b. cbn. unfold isIdle in I. destruct (cWait P); discriminate.
Qed.

Lemma run_link es : forall w, link w -> link (fst (run w es)).
Proof.
  induction es as [|e r IH]; intros w L; cbn [Czar_Model.run]; [exact L|].
  pose proof (step_link w e L) as L1. destruct (step w e) as [w1 o]. cbn [fst] in *. specialize (IH w1 L1).
  destruct (run w1 r). exact IH.
Qed.

Lemma next_beat w i P n b r d : link w -> wProcs w i = Some P -> cWait P = WPing n b -> pick n (wPongs w) = Some r ->
  let w' := fst (step w (EPong i d)) in
  wProcs w' i = None \/
  (exists P', wProcs w' i = Some P' /\ cState P' = Unknown /\ cWait P' = Idle /\ cConn P' = None) \/
  In (OPing i) (snd (step w' (EBeat i))) \/
  (exists v l, r = Some (v, l) /\ (vUntil v < wNow w' \/ ~ vle (cVers P) v)).
Proof.
  intros L E W EK w'. destruct (L _ _ E _ _ W) as [S C]. unfold w'. clear w'. cbn [Czar_Model.step]. rewrite E, W, EK.
  assert (SV0 : forall t v l up Q, cVers Q = cVers P -> setVers t i v l up Q = None -> vUntil v < t \/ ~ vle (cVers P) v).
  { intros t v l up Q EQ. unfold setVers. destruct (Z.ltb_spec (vUntil v) t); [auto|]. rewrite EQ.
    destruct (vlt v (cVers P)) eqn:V; [|discriminate]. intros _. right. intro K. apply vlt_false in K. congruence. }
  assert (BEAT : forall t Q, cState Q = Not -> cConn Q = cConn P -> cWait Q = Idle -> cBeat Q = true -> forall w0, wProcs w0 i = Some Q -> wNow w0 = t ->
            In (OPing i) (snd (step w0 (EBeat i)))).
  { intros t Q Q1 Q2 Q3 Q4 w0 E0 _. cbn [Czar_Model.step]. rewrite E0, Q2. destruct (cConn P) as [[q y]|]; [|congruence].
    unfold isNot, isIdle. rewrite Q1, Q3, Q4. left. reflexivity. }
  assert (HU : forall w0, exists P', wProcs (fst (settle i (Go (hangUp (withWait Idle P), [])) w0)) i = Some P' /\ cState P' = Unknown /\ cWait P' = Idle /\ cConn P' = None).
  { intro w0. eexists. cbn [settle fst putProc wProcs]. rewrite setProc_eq. split; [reflexivity|]. cbn. auto. }
  destruct b.
  - unfold afterFirst. destruct r as [[v l]|]; [|right; left; apply HU].
    destruct (setVers _ _ _ _ _ _) as [[Q o]|] eqn:SV.
    + destruct (setVers_spec _ _ _ _ _ _ _ _ SV) as (_ & _ & -> & _). right. right. left.
      eapply BEAT; [| | | |cbn [settle fst putProc wProcs]; rewrite setProc_eq; reflexivity|reflexivity]; cbn; auto.
    + right. right. right. exists v, l. split; [reflexivity|]. cbn. eapply SV0; [|exact SV]. reflexivity.
  - unfold afterBeat. destruct r as [[v l]|]; [|right; left; apply HU].
    destruct (getP _ _) as [x|]; [|left; cbn [settle fst putProc wProcs]; apply setProc_eq].
    destruct (_ && _); [right; left; apply HU|].
    destruct (setVers _ _ _ _ _ _) as [[Q o]|] eqn:SV.
    + destruct (setVers_spec _ _ _ _ _ _ _ _ SV) as (_ & _ & -> & _). right. right. left.
      eapply BEAT; [| | | |cbn [settle fst putProc wProcs]; rewrite setProc_eq; reflexivity|reflexivity]; cbn; auto.
    + right. right. right. exists v, l. split; [reflexivity|]. cbn. eapply SV0; [|exact SV]. reflexivity.
Qed.
End More.
