(** * The net/rpc interface: the theorems *)

From Coq Require Import ZArith List Bool Lia PeanoNat.
From Verif Require Import NetRpc_Model NetRpc_Spec.
Import ListNotations.
Local Open Scope Z_scope.

(** ** Lists *)

Lemma nth_nupd : forall {A} (l : list A) i j f,
  nth_error (nupd i f l) j = if Nat.eqb i j then option_map f (nth_error l j) else nth_error l j.
Proof.
  induction l as [|x r IH]; intros [|i] [|j] f; cbn; try reflexivity.
  - destruct (Nat.eqb i j); reflexivity.
  - apply IH.
Qed.

Lemma len_nupd : forall {A} (l : list A) i f, length (nupd i f l) = length l.
Proof. induction l as [|x r IH]; intros [|i] f; cbn; auto. Qed.

Lemma nth_pend : forall l k, nth k l false = true <-> nth_error l k = Some true.
Proof.
  induction l as [|x r IH]; intros [|k]; cbn.
  - split; discriminate.
  - split; discriminate.
  - split; [intros ->; reflexivity|]. intros E. injection E as ->. reflexivity.
  - apply IH.
Qed.

(** ** The invariant *)

Definition srvStory (k : nat) (h : list nev) : list nev :=
  filter (fun e => match e with
                   | NCalled q _ _ | NInvoked q _ _ | NYielded q _ _ => Nat.eqb q k
                   | _ => false
                   end) h.

Definition act (x : nphase) : bool := match x with PNew | POver => false | _ => true end.

Definition rbytes (p : nat) (b e : Z) : list tok := [RHdr p e; RBody (if e =? 0 then b else 0)].

Section Inv.
Variable knows : Z -> bool.

Definition res (p : nat) (meth a b e : Z) (l : list nev) : Prop :=
  (knows meth = true /\ l = [NCalled p meth a; NInvoked p meth a; NYielded p b e]) \/
  (knows meth = false /\ b = 0 /\ e = eNoMethod /\ l = [NCalled p meth a]).

Definition okJob (dec enc : list tok) (p : nat) (j : njob) (l : list nev) (meth a : Z) : Prop :=
  nBytes j = [THdr p meth; TArg a] /\
  match nPh j with
  | PNew => l = [NCalled p meth a] /\ nOut j = None
  | PBegun => l = [NCalled p meth a] /\ dec = nBytes j /\ enc = [] /\ nOut j = None
  | PHdr seq m' => seq = p /\ m' = meth /\ knows meth = true /\ l = [NCalled p meth a] /\
      dec = [TArg a] /\ enc = [] /\ nOut j = None
  | PRun seq => seq = p /\ knows meth = true /\ l = [NCalled p meth a; NInvoked p meth a] /\ enc = [] /\ nOut j = None
  | PRet seq b e => seq = p /\ res p meth a b e l /\ enc = [] /\ nOut j = None
  | PWritten => exists b e, res p meth a b e l /\ enc = rbytes p b e /\ nOut j = None
  | POver => exists b e, res p meth a b e l /\ nOut j = Some (rbytes p b e)
  end.

Definition outcomeOf (b e : Z) : outcome := if e =? 0 then NOk b else NErr e.

Record ninv (s : nst) : Prop := mkNinv {
  n_len : length (nPend s) = length (nJobs s);
  n_hold : forall k, nth_error (nPend s) k = Some true <-> nHold s = Some k;
  n_one : forall p q j j', nth_error (nJobs s) p = Some j -> nth_error (nJobs s) q = Some j' ->
    act (nPh j) = true -> act (nPh j') = true -> p = q;
  n_began : forall p j, nth_error (nJobs s) p = Some j -> nPh j <> PNew -> In (NBegan p) (nHist s);
  n_ended : forall p, In (NEnded p) (nHist s) -> exists j, nth_error (nJobs s) p = Some j /\ nPh j = POver;
  n_none : forall p, nth_error (nJobs s) p = None -> callStory p (nHist s) = [];
  n_job : forall p j, nth_error (nJobs s) p = Some j ->
    exists meth a, okJob (nDec s) (nEnc s) p j (srvStory p (nHist s)) meth a;
  n_ret : forall k o, In (NReturned k o) (nHist s) ->
    nth_error (nPend s) k = Some false /\
    (o = NGone \/
     exists j meth a b e, nth_error (nJobs s) k = Some j /\ nPh j = POver /\ res k meth a b e (srvStory k (nHist s)) /\
       o = outcomeOf b e /\ callStory k (nHist s) = srvStory k (nHist s) ++ [NReturned k o]);
  n_calm : ~ In NPanicked (nHist s);
  n_all : forall k, nth_error (nPend s) k = Some false -> exists o, In (NReturned k o) (nHist s) }.

Lemma ninv_init : ninv ninit.
Proof.
  constructor; cbn; intros; try contradiction; auto;
  repeat match goal with
         | H : nth_error [] ?i = Some _ |- _ => destruct i; discriminate H
         end.
  split; intros H; [destruct k|]; discriminate H.
Qed.

Lemma story_app : forall k a b, srvStory k (a ++ b) = srvStory k a ++ srvStory k b.
Proof. intros. apply filter_app. Qed.
Lemma cstory_app : forall k a b, callStory k (a ++ b) = callStory k a ++ callStory k b.
Proof. intros. apply filter_app. Qed.

Lemma story_same : forall k h, (forall o, ~ In (NReturned k o) h) -> callStory k h = srvStory k h.
Proof.
  intros k h H. unfold callStory, srvStory. apply filter_ext_in. intros e He.
  destruct e; try reflexivity. apply Nat.eqb_neq. intros ->. apply (H _ He).
Qed.

Lemma oneByOne_app : forall a b, oneByOne (a ++ b) -> oneByOne a.
Proof.
  intros a b H h1 p h2 E q K. apply (H h1 p (h2 ++ b)); [|exact K]. rewrite E, <- app_assoc. reflexivity.
Qed.

Lemma nth_len : forall {A} (l : list A) k x, nth_error l k = Some x -> (k < length l)%nat.
Proof. intros. apply nth_error_Some. congruence. Qed.

Lemma nth_snoc : forall {A} (l : list A) x k y, nth_error (l ++ [x]) k = Some y ->
  nth_error l k = Some y \/ (k = length l /\ y = x).
Proof.
  intros A l x k y H. destruct (Nat.lt_trichotomy k (length l)) as [L|[L|L]].
  - rewrite nth_error_app1 in H by exact L. auto.
  - subst k. rewrite nth_error_app2, Nat.sub_diag in H by lia. cbn in H. injection H as ->. auto.
  - rewrite nth_error_app2 in H by lia. destruct (k - length l)%nat as [|[|d]] eqn:E; cbn in H; try discriminate H. lia.
Qed.

(** a step of the goroutine of request p: the job changes to j', the buffers to
    dec and enc, and evs, about p, are logged. *)
Lemma ninv_job : forall s p j j' dec enc ev,
  ninv s -> nth_error (nJobs s) p = Some j ->
  (act (nPh j) = true \/ (nPh j = PNew /\ forall q x, nth_error (nJobs s) q = Some x -> act (nPh x) = false)) ->
  nPh j' <> PNew -> (In (NBegan p) (nHist s ++ ev)) ->
  (In (NEnded p) ev -> nPh j' = POver) ->
  (forall e, In e ev -> match e with NBegan q | NInvoked q _ _ | NYielded q _ _ | NEnded q => q = p | _ => False end) ->
  (exists meth a, okJob dec enc p j' (srvStory p (nHist s ++ ev)) meth a) ->
  ninv (mkNSt (nHold s) (nPend s) dec enc (nupd p (fun _ => j') (nJobs s)) (nHist s ++ ev)).
Proof.
  intros s p j j' dec enc ev [H1 H2 H3 H4 H5 H6 H7 H8 H9 HA] Hp HX NP HB HE HV HJ.
  assert (forall q, q <> p -> srvStory q ev = []) as SV.
  { intros q NE. unfold srvStory. clear - HV NE.
    induction ev as [|e r IH]; [reflexivity|]. cbn. rewrite IH by (intros; apply HV; right; assumption).
    specialize (HV e (or_introl eq_refl)). destruct e; try contradiction; try reflexivity; rewrite HV;
      (destruct (Nat.eqb_spec p q); [congruence|reflexivity]). }
  assert (forall q o, ~ In (NReturned q o) ev) as NR by (intros q o K; apply HV in K; exact K).
  assert (forall q j0, nth_error (nJobs s) q = Some j0 -> act (nPh j0) = true -> q = p) as OTH.
  { intros q j0 K A. destruct HX as [HX|[_ HX]]; [eapply H3; eassumption|]. rewrite (HX q j0 K) in A. discriminate A. }
  assert (forall q jq, nth_error (nupd p (fun _ => j') (nJobs s)) q = Some jq ->
    (q = p /\ jq = j') \/ (q <> p /\ nth_error (nJobs s) q = Some jq)) as BK.
  { intros q jq K. rewrite nth_nupd in K. destruct (Nat.eqb_spec p q) as [<-|NE].
    - rewrite Hp in K. cbn in K. injection K as <-. auto.
    - right. auto. }
  constructor; cbn [nHold nPend nDec nEnc nJobs nHist].
  - rewrite len_nupd. exact H1.
  - exact H2.
  - intros q1 q2 j1 j2 K1 K2 A1 A2. apply BK in K1. apply BK in K2.
    destruct K1 as [[-> ->]|[N1 K1]]; destruct K2 as [[-> ->]|[N2 K2]]; auto.
    + exfalso. apply N2. eapply OTH; eassumption.
    + exfalso. apply N1. eapply OTH; eassumption.
    + eapply H3; eassumption.
  - intros q jq K N. apply BK in K. destruct K as [[-> ->]|[NE K]]; [exact HB|].
    apply in_app_iff. left. eapply H4; eassumption.
  - intros q I. apply in_app_iff in I. rewrite nth_nupd. destruct I as [I|I].
    + destruct (H5 q I) as (jq & K & E). destruct (Nat.eqb_spec p q) as [<-|NE]; [|eauto].
      exfalso. rewrite Hp in K. injection K as <-.
      destruct HX as [HX|[HX _]]; rewrite E in HX; discriminate HX.
    + pose proof (HV _ I) as EQ. cbn in EQ. subst q. rewrite Nat.eqb_refl, Hp. cbn. eauto.
  - intros q K. rewrite nth_nupd in K. destruct (Nat.eqb_spec p q) as [EQ|NE]; [rewrite <- EQ, Hp in K; discriminate K|].
    rewrite cstory_app, (H6 q K), (story_same q ev (NR q)), (SV q); auto.
  - intros q jq K. apply BK in K. destruct K as [[-> ->]|[NE K]]; [exact HJ|].
    destruct (H7 q jq K) as (meth & a & O1 & O2). exists meth, a.
    rewrite story_app, (SV q NE), app_nil_r. split; [exact O1|].
    destruct (nPh jq) eqn:EP; try exact O2;
      (exfalso; apply NE; eapply OTH; [exact K|rewrite EP; reflexivity]).
  - intros k o I. apply in_app_iff in I. destruct I as [I|I]; [|destruct (NR k o I)].
    destruct (H8 k o I) as [K1 K2]. split; [exact K1|]. destruct K2 as [K2|(jk & meth & a & b & e & L1 & L2 & L3 & L4 & L5)]; [auto|].
    right. assert (k <> p) as NE.
    { intros ->. rewrite Hp in L1. injection L1 as <-. destruct HX as [HX|[HX _]]; rewrite L2 in HX; discriminate HX. }
    exists jk, meth, a, b, e. rewrite nth_nupd. destruct (Nat.eqb_spec p k) as [<-|_]; [congruence|].
    rewrite story_app, cstory_app, (SV k NE), (story_same k ev (NR k)), (SV k NE), !app_nil_r. auto.
  - intros I. apply in_app_iff in I. destruct I as [I|I]; [exact (H9 I)|]. apply HV in I. exact I.
  - intros k K. destruct (HA k K) as (o & I). exists o. apply in_app_iff. auto.
Qed.

Lemma nth_false_same : forall (l : list bool) k i, nth_error (nupd k (fun _ => false) l) i = Some true ->
  nth_error l i = Some true /\ i <> k.
Proof.
  intros l k i H. rewrite nth_nupd in H. destruct (Nat.eqb_spec k i) as [->|NE]; [|auto].
  destruct (nth_error l i); cbn in H; discriminate H.
Qed.

(** the call in progress returns o. *)
Lemma ninv_done : forall s k o, ninv s -> nHold s = Some k ->
  (o = NGone \/ exists j b e, nth_error (nJobs s) k = Some j /\ nPh j = POver /\ nOut j = Some (rbytes k b e) /\
     o = outcomeOf b e) ->
  ninv (mkNSt None (nupd k (fun _ => false) (nPend s)) (nDec s) (nEnc s) (nJobs s) (nHist s ++ [NReturned k o])).
Proof.
  intros s k o [H1 H2 H3 H4 H5 H6 H7 H8 H9 HA] HH HO.
  pose proof (proj2 (H2 k) HH) as PK.
  assert (forall o', ~ In (NReturned k o') (nHist s)) as NRK.
  { intros o' I. destruct (H8 k o' I) as [X _]. congruence. }
  constructor; cbn [nHold nPend nDec nEnc nJobs nHist].
  - rewrite len_nupd. exact H1.
  - intros i. split; [|discriminate]. intros K. apply nth_false_same in K. destruct K as [K NE].
    apply H2 in K. congruence.
  - exact H3.
  - intros p j K N. apply in_app_iff. left. eauto.
  - intros p I. apply in_app_iff in I. destruct I as [I|[I|[]]]; [eauto|discriminate I].
  - intros p K. rewrite cstory_app, (H6 p K). cbn. destruct (Nat.eqb_spec k p) as [<-|NE]; [|reflexivity].
    apply nth_error_None in K. apply nth_len in PK. lia.
  - intros p j K. destruct (H7 p j K) as (meth & a & O). exists meth, a.
    rewrite story_app. cbn. rewrite app_nil_r. exact O.
  - intros i o' I. apply in_app_iff in I. rewrite story_app, cstory_app. cbn [srvStory filter]. rewrite app_nil_r.
    destruct I as [I|[I|[]]].
    + assert (i <> k) as NE by (intros ->; exact (NRK _ I)).
      destruct (H8 i o' I) as [K1 K2]. split.
      * rewrite nth_nupd. destruct (Nat.eqb_spec k i) as [<-|_]; [congruence|exact K1].
      * destruct K2 as [K2|(j & meth & a & b & e & L1 & L2 & L3 & L4 & L5)]; [auto|right].
        exists j, meth, a, b, e. repeat (split; [assumption|]).
        cbn. destruct (Nat.eqb_spec k i) as [<-|_]; [congruence|]. rewrite app_nil_r. exact L5.
    + injection I as <- <-. split.
      * rewrite nth_nupd, Nat.eqb_refl, PK. reflexivity.
      * destruct HO as [->|(j & b & e & L1 & L2 & L3 & L4)]; [auto|right].
        destruct (H7 k j L1) as (meth & a & O1 & O2). rewrite L2 in O2. destruct O2 as (b' & e' & O2 & O3).
        exists j, meth, a, b', e'. split; [exact L1|]. split; [exact L2|]. split; [exact O2|].
        rewrite L3 in O3. unfold rbytes in O3. injection O3 as E1 E2. subst e'. split.
        -- rewrite L4. unfold outcomeOf. destruct (e =? 0); [|reflexivity]. congruence.
        -- cbn. rewrite Nat.eqb_refl. rewrite (story_same k _ NRK). reflexivity.
  - intros I. apply in_app_iff in I. destruct I as [I|[I|[]]]; [exact (H9 I)|discriminate I].
  - intros i K. rewrite nth_nupd in K. destruct (Nat.eqb_spec k i) as [EQ|NE].
    + rewrite <- EQ. exists o. apply in_app_iff. right. left. reflexivity.
    + destruct (HA i K) as (o' & I). exists o'. apply in_app_iff. auto.
Qed.

Lemma nupd_const : forall {A} (l : list A) p f x, nth_error l p = Some x -> nupd p f l = nupd p (fun _ => f x) l.
Proof.
  induction l as [|y r IH]; intros [|p] f x H; cbn in *; try discriminate H.
  - injection H as ->. reflexivity.
  - rewrite (IH p f x H). reflexivity.
Qed.

Lemma ninv_step : forall o s, ninv s -> oneByOne (nHist (nstep knows o s)) -> ninv (nstep knows o s).
Proof.
  intros o s H HS. pose proof H as [H1 H2 H3 H4 H5 H6 H7 H8 H9 HA].
  destruct o; cbn [nstep] in *.
  - (* DoCall *)
    unfold nCall in *. destruct (nHold s) as [k0|] eqn:EH; [exact H|].
    set (k := length (nPend s)). unfold nlog, setHold, setPend, setJobs. cbn.
    assert (nth_error (nJobs s) k = None) as NK by (apply nth_error_None; unfold k; lia).
    assert (callStory k (nHist s) = []) as CK by (apply H6; exact NK).
    assert (forall o', ~ In (NReturned k o') (nHist s)) as NRK.
    { intros o' I. destruct (H8 k o' I) as [X _]. apply nth_len in X. unfold k in X. lia. }
    assert (srvStory k (nHist s) = []) as SK by (rewrite <- story_same; assumption).
    constructor; cbn [nHold nPend nDec nEnc nJobs nHist].
    + rewrite !app_length. cbn. lia.
    + intros i. split.
      * intros K. apply nth_snoc in K. destruct K as [K|[-> _]]; [|reflexivity]. apply H2 in K. congruence.
      * intros E. injection E as <-. unfold k. rewrite nth_error_app2, Nat.sub_diag by lia. reflexivity.
    + intros p q j j' K K' A A'. apply nth_snoc in K. apply nth_snoc in K'.
      destruct K as [K|[-> ->]]; [|discriminate A]. destruct K' as [K'|[-> ->]]; [|discriminate A']. eauto.
    + intros p j K N. apply nth_snoc in K. destruct K as [K|[-> ->]]; [|destruct N; reflexivity].
      apply in_app_iff. left. eauto.
    + intros p I. apply in_app_iff in I. destruct I as [I|[I|[]]]; [|discriminate I].
      destruct (H5 p I) as (j & K & E). exists j. split; [|exact E].
      rewrite nth_error_app1; [exact K|eapply nth_len; exact K].
    + intros p K. assert (p <> k) as NE.
      { intros ->. rewrite nth_error_app2 in K by (unfold k; lia). unfold k in K. rewrite <- H1, Nat.sub_diag in K. discriminate K. }
      assert (nth_error (nJobs s) p = None) as K0.
      { apply nth_error_None in K. rewrite app_length in K. cbn in K. apply nth_error_None. lia. }
      rewrite cstory_app, (H6 p K0). cbn. destruct (Nat.eqb_spec k p); [congruence|reflexivity].
    + intros p j K. apply nth_snoc in K. destruct K as [K|[-> ->]].
      * destruct (H7 p j K) as (m0 & a0 & O). exists m0, a0. rewrite story_app. cbn.
        destruct (Nat.eqb_spec k p) as [EQ|_]; [rewrite <- EQ in K; congruence|]. rewrite app_nil_r. exact O.
      * rewrite <- H1. fold k. exists meth, a. rewrite story_app, SK. cbn. rewrite Nat.eqb_refl. split; [reflexivity|]. cbn. auto.
    + intros i o' I. apply in_app_iff in I. destruct I as [I|[I|[]]]; [|discriminate I].
      destruct (H8 i o' I) as [K1 K2]. pose proof (nth_len _ _ _ K1) as L. split.
      * rewrite nth_error_app1 by exact L. exact K1.
      * destruct K2 as [K2|(j & m0 & a0 & b & e & L1 & L2 & L3 & L4 & L5)]; [auto|right].
        exists j, m0, a0, b, e. rewrite nth_error_app1 by (rewrite <- H1; exact L).
        rewrite story_app, cstory_app. cbn. destruct (Nat.eqb_spec k i) as [EQ|_]; [unfold k in EQ; lia|].
        rewrite !app_nil_r. auto.
    + intros I. apply in_app_iff in I. destruct I as [I|[I|[]]]; [exact (H9 I)|discriminate I].
    + intros i K. apply nth_snoc in K. destruct K as [K|[_ K]]; [|discriminate K].
      destruct (HA i K) as (o' & I). exists o'. apply in_app_iff. auto.
  - (* DoGiveUp *)
    unfold nGiveUp in *. destruct (nHold s) as [k|] eqn:EH; [|exact H].
    rewrite (proj2 (nth_pend (nPend s) k)) by (apply H2; reflexivity).
    apply (ninv_done s k NGone H EH). auto.
  - (* DoInput *)
    unfold nInput in *. destruct (nHold s) as [k|] eqn:EH; [|exact H].
    destruct (nth_error (nJobs s) k) as [[by_ ph out]|] eqn:EJ; [|exact H].
    destruct out as [out|]; [|exact H].
    destruct (H7 k _ EJ) as (meth & a & O1 & O2). cbn [nPh nOut nBytes] in O1, O2.
    destruct ph; try (exfalso; decompose [and ex] O2; discriminate).
    destruct O2 as (b & e & O2 & O3). injection O3 as ->. unfold rbytes. cbn [nPend].
    rewrite (proj2 (nth_pend (nPend s) k)) by (apply H2; reflexivity).
    assert (ninv (mkNSt None (nupd k (fun _ => false) (nPend s)) (nDec s) (nEnc s) (nJobs s)
       (nHist s ++ [NReturned k (outcomeOf b e)]))) as G.
    { apply ninv_done; [exact H|exact EH|]. right. exists (mkNJob by_ POver (Some (rbytes k b e))), b, e. auto. }
    unfold outcomeOf in G. destruct (e =? 0); exact G.
  - (* DoBegin *)
    unfold nBegin in *. destruct (nth_error (nJobs s) p) as [[by_ ph out]|] eqn:EJ; [|exact H].
    destruct ph; try exact H. unfold nlog, setJ, setEnc, setDec, setJobs in *. cbn in *.
    rewrite (nupd_const _ p _ _ EJ). cbn.
    destruct (H7 p _ EJ) as (meth & a & O1 & O2). cbn [nPh nOut nBytes] in O1, O2. destruct O2 as [O2 O3].
    eapply (ninv_job s p _ (mkNJob by_ PBegun out)); [exact H|exact EJ| |discriminate| | | |].
    + right. split; [reflexivity|]. intros q x Hq. destruct (act (nPh x)) eqn:A; [|reflexivity]. exfalso.
      assert (In (NBegan q) (nHist s)) as I by (apply (H4 q x Hq); intros E; rewrite E in A; discriminate A).
      pose proof (HS (nHist s) p [] eq_refl q I) as E. destruct (H5 q E) as (x' & Hq' & E').
      rewrite Hq in Hq'. injection Hq' as <-. rewrite E' in A. discriminate A.
    + apply in_app_iff. right. left. reflexivity.
    + intros [X|[]]. discriminate X.
    + intros e [<-|[]]. reflexivity.
    + exists meth, a. rewrite story_app. cbn. rewrite app_nil_r. split; [exact O1|]. cbn. auto.
  - (* DoReadHdr *)
    unfold nReadHdr in *. destruct (nth_error (nJobs s) p) as [[by_ ph out]|] eqn:EJ; [|exact H].
    destruct ph; try exact H.
    destruct (H7 p _ EJ) as (meth & a & O1 & O2). cbn [nPh nOut nBytes] in O1, O2. destruct O2 as (O2 & O3 & O4 & O5).
    subst by_. rewrite O3 in *. unfold setJ, setDec, setJobs in *. cbn in *. rewrite (nupd_const _ p _ _ EJ). unfold setNPh. cbn [nBytes nOut nPh].
    rewrite <- (app_nil_r (nHist s)).
    eapply (ninv_job s p _ (mkNJob [THdr p meth; TArg a] _ out)); [exact H|exact EJ|left; reflexivity| | | | |].
    + cbn. destruct (knows meth); discriminate.
    + rewrite app_nil_r. eapply H4; [exact EJ|discriminate].
    + intros [].
    + intros e [].
    + exists meth, a. rewrite app_nil_r. split; [reflexivity|]. cbn. rewrite O2, O4, O5.
      destruct (knows meth) eqn:EK; cbn; auto 10. unfold res. rewrite EK. auto 10.
  - (* DoReadBody *)
    unfold nReadBody in *. destruct (nth_error (nJobs s) p) as [[by_ ph out]|] eqn:EJ; [|exact H].
    destruct ph; try exact H.
    destruct (H7 p _ EJ) as (m1 & a & O1 & O2). cbn [nPh nOut nBytes] in O1, O2.
    destruct O2 as (E1 & E2 & EK & O2 & O3 & O4 & O5). subst seq meth.
    rewrite O3 in *. unfold nlog, setJ, setDec, setJobs in *. cbn in *. rewrite (nupd_const _ p _ _ EJ). unfold setNPh. cbn [nBytes nOut nPh].
    eapply (ninv_job s p _ (mkNJob by_ _ out)); [exact H|exact EJ|left; reflexivity|discriminate| | | |].
    + apply in_app_iff. left. eapply H4; [exact EJ|discriminate].
    + intros [X|[]]. discriminate X.
    + intros e [<-|[]]. reflexivity.
    + exists m1, a. rewrite story_app, O2. cbn. rewrite Nat.eqb_refl. split; [exact O1|]. cbn. auto 10.
  - (* DoReturn *)
    unfold nReturn in *. destruct (nth_error (nJobs s) p) as [[by_ ph out]|] eqn:EJ; [|exact H].
    destruct ph; try exact H.
    destruct (H7 p _ EJ) as (m1 & a & O1 & O2). cbn [nPh nOut nBytes] in O1, O2.
    destruct O2 as (E1 & EK & O2 & O3 & O4). subst seq.
    unfold nlog, setJ, setJobs in *. cbn in *. rewrite (nupd_const _ p _ _ EJ). unfold setNPh. cbn [nBytes nOut nPh].
    eapply (ninv_job s p _ (mkNJob by_ _ out)); [exact H|exact EJ|left; reflexivity|discriminate| | | |].
    + apply in_app_iff. left. eapply H4; [exact EJ|discriminate].
    + intros [X|[]]. discriminate X.
    + intros e0 [<-|[]]. reflexivity.
    + exists m1, a. rewrite story_app, O2. cbn. rewrite Nat.eqb_refl. split; [exact O1|]. cbn. unfold res. auto 10.
  - (* DoWrite *)
    unfold nWrite in *. destruct (nth_error (nJobs s) p) as [[by_ ph out]|] eqn:EJ; [|exact H].
    destruct ph; try exact H.
    destruct (H7 p _ EJ) as (m1 & a & O1 & O2). cbn [nPh nOut nBytes] in O1, O2.
    destruct O2 as (E1 & O2 & O3 & O4). subst seq.
    unfold setJ, setEnc, setJobs in *. cbn in *. rewrite (nupd_const _ p _ _ EJ), O3. cbn.
    rewrite <- (app_nil_r (nHist s)).
    eapply (ninv_job s p _ (mkNJob by_ _ out)); [exact H|exact EJ|left; reflexivity|discriminate| | | |].
    + rewrite app_nil_r. eapply H4; [exact EJ|discriminate].
    + intros [].
    + intros e0 [].
    + exists m1, a. rewrite app_nil_r. split; [exact O1|]. cbn. exists b, e. auto.
  - (* DoSend *)
    unfold nSend in *. destruct (nth_error (nJobs s) p) as [[by_ ph out]|] eqn:EJ; [|exact H].
    destruct ph; try exact H.
    destruct (H7 p _ EJ) as (m1 & a & O1 & O2). cbn [nPh nOut nBytes] in O1, O2.
    destruct O2 as (b & e & O2 & O3 & O4).
    unfold nlog, setJobs in *. cbn in *. rewrite (nupd_const _ p _ _ EJ), O3. cbn.
    eapply (ninv_job s p _ (mkNJob by_ POver (Some (rbytes p b e)))); [exact H|exact EJ|left; reflexivity|discriminate| | | |].
    + apply in_app_iff. left. eapply H4; [exact EJ|discriminate].
    + reflexivity.
    + intros e0 [<-|[]]. reflexivity.
    + exists m1, a. rewrite story_app. cbn. rewrite app_nil_r. split; [exact O1|]. cbn. exists b, e. auto.
Qed.

Lemma nhist_step : forall o s, exists l, nHist (nstep knows o s) = nHist s ++ l.
Proof.
  intros o s. assert (exists l, nHist s = nHist s ++ l) as R by (exists []; rewrite app_nil_r; reflexivity).
  destruct o; cbn [nstep]; unfold nCall, nGiveUp, nInput, nBegin, nReadHdr, nReadBody, nReturn, nWrite, nSend, nDone;
  repeat match goal with
         | |- context [match ?x with _ => _ end] => destruct x; try exact R; cbn; try exact R; eauto
         end; cbn; try exact R; eauto.
Qed.

Lemma nrun_snoc : forall os o, nrun knows (os ++ [o]) = nstep knows o (nrun knows os).
Proof. intros. unfold nrun. rewrite fold_left_app. reflexivity. Qed.

Lemma ninv_run : forall os, oneByOne (nHist (nrun knows os)) -> ninv (nrun knows os).
Proof.
  intros os. induction os as [|o os IH] using rev_ind; [intros _; exact ninv_init|].
  rewrite nrun_snoc. intros H. apply ninv_step; [|exact H]. apply IH.
  destruct (nhist_step o (nrun knows os)) as (l & E). rewrite E in H. eapply oneByOne_app. exact H.
Qed.

End Inv.

(** ** When no call is given up *)

Record calm (s : nst) : Prop := mkCalm {
  c_hold : forall p j, nth_error (nJobs s) p = Some j -> nHold s <> Some p -> nPh j = POver;
  c_ended : forall p j, nth_error (nJobs s) p = Some j -> nPh j = POver -> In (NEnded p) (nHist s);
  c_began : forall p, In (NBegan p) (nHist s) -> exists j, nth_error (nJobs s) p = Some j /\ nPh j <> PNew }.

Lemma calm_init : calm ninit.
Proof.
  constructor; cbn; intros; try contradiction; destruct p; discriminate.
Qed.

Lemma calm_job : forall s p j j' dec enc ev,
  calm s -> nth_error (nJobs s) p = Some j -> nPh j <> POver -> nPh j' <> PNew ->
  (nPh j' = POver -> In (NEnded p) ev) -> (forall q, In (NBegan q) ev -> q = p) ->
  calm (mkNSt (nHold s) (nPend s) dec enc (nupd p (fun _ => j') (nJobs s)) (nHist s ++ ev)).
Proof.
  intros s p j j' dec enc ev [C1 C2 C3] Hp NO NN HE HB. constructor; cbn [nHold nPend nDec nEnc nJobs nHist].
  - intros q jq K NH. rewrite nth_nupd in K. destruct (Nat.eqb_spec p q) as [EQ|NE]; [|eauto].
    destruct NO. apply (C1 p j Hp). rewrite EQ. exact NH.
  - intros q jq K E. apply in_app_iff. rewrite nth_nupd in K. destruct (Nat.eqb_spec p q) as [EQ|NE]; [|left; eauto].
    rewrite <- EQ in *. rewrite Hp in K. cbn in K. injection K as <-. right. auto.
  - intros q I. rewrite nth_nupd. apply in_app_iff in I. destruct (Nat.eqb_spec p q) as [EQ|NE].
    + rewrite <- EQ, Hp. cbn. eauto.
    + destruct I as [I|I]; [auto|]. apply HB in I. congruence.
Qed.

Lemma calm_done : forall s k o, calm s -> nHold s = Some k ->
  (forall j, nth_error (nJobs s) k = Some j -> nPh j = POver) ->
  calm (mkNSt None (nupd k (fun _ => false) (nPend s)) (nDec s) (nEnc s) (nJobs s) (nHist s ++ [NReturned k o])).
Proof.
  intros s k o [C1 C2 C3] HH HO. constructor; cbn [nHold nPend nDec nEnc nJobs nHist].
  - intros p j K _. destruct (Nat.eq_dec p k) as [->|NE]; [auto|]. apply (C1 p j K). congruence.
  - intros p j K E. apply in_app_iff. left. eauto.
  - intros p I. apply in_app_iff in I. destruct I as [I|[I|[]]]; [auto|discriminate I].
Qed.

Lemma calm_step : forall knows o s, ninv knows s -> calm s -> noneGivenUp (nHist (nstep knows o s)) -> calm (nstep knows o s).
Proof.
  intros knows o s [H1 H2 H3 H4 H5 H6 H7 H8 H9 HA] C HG. pose proof C as [C1 C2 C3].
  destruct o; cbn [nstep] in *.
  - unfold nCall in *. destruct (nHold s) as [k0|] eqn:EH; [exact C|].
    unfold nlog, setHold, setPend, setJobs. constructor; cbn [nHold nPend nDec nEnc nJobs nHist].
    + intros p j K NH. apply nth_snoc in K. destruct K as [K|[-> ->]]; [apply (C1 p j K); congruence|].
      destruct NH. rewrite H1. reflexivity.
    + intros p j K E. apply in_app_iff. left. apply nth_snoc in K. destruct K as [K|[-> ->]]; [eauto|discriminate E].
    + intros p I. apply in_app_iff in I. destruct I as [I|[I|[]]]; [|discriminate I].
      destruct (C3 p I) as (j & K & N). exists j. split; [|exact N]. rewrite nth_error_app1; [exact K|eapply nth_len; exact K].
  - unfold nGiveUp in *. destruct (nHold s) as [k|] eqn:EH; [|exact C].
    rewrite (proj2 (nth_pend (nPend s) k)) in HG by (apply H2; reflexivity).
    exfalso. apply (HG k). unfold setHold, nDone, nlog. cbn. apply in_app_iff. right. left. reflexivity.
  - unfold nInput in *. destruct (nHold s) as [k|] eqn:EH; [|exact C].
    destruct (nth_error (nJobs s) k) as [[by_ ph out]|] eqn:EJ; [|exact C].
    destruct out as [out|]; [|exact C].
    destruct (H7 k _ EJ) as (meth & a & O1 & O2). cbn [nPh nOut nBytes] in O1, O2.
    destruct ph; try (exfalso; decompose [and ex] O2; discriminate).
    destruct O2 as (b & e & O2 & O3). injection O3 as ->. unfold rbytes. cbn [nPend].
    rewrite (proj2 (nth_pend (nPend s) k)) by (apply H2; reflexivity).
    assert (forall o, calm (mkNSt None (nupd k (fun _ => false) (nPend s)) (nDec s) (nEnc s) (nJobs s)
       (nHist s ++ [NReturned k o]))) as G.
    { intros o. apply calm_done; [exact C|exact EH|]. intros j K. rewrite EJ in K. injection K as <-. reflexivity. }
    destruct (negb (e =? 0)); apply G.
  - unfold nBegin in *. destruct (nth_error (nJobs s) p) as [[by_ ph out]|] eqn:EJ; [|exact C].
    destruct ph; try exact C. unfold nlog, setJ, setEnc, setDec, setJobs in *. cbn [nHold nPend nDec nEnc nJobs nHist] in *.
    rewrite (nupd_const _ p _ _ EJ). eapply calm_job; [exact C|exact EJ|discriminate|discriminate|discriminate|].
    intros q [X|[]]. injection X as ->. reflexivity.
  - unfold nReadHdr in *. destruct (nth_error (nJobs s) p) as [[by_ ph out]|] eqn:EJ; [|exact C].
    destruct ph; try exact C.
    destruct (H7 p _ EJ) as (meth & a & O1 & O2). cbn [nPh nOut nBytes] in O1, O2. destruct O2 as (O2 & O3 & O4 & O5).
    rewrite O3, O1 in *. unfold setJ, setDec, setJobs in *. cbn [nHold nPend nDec nEnc nJobs nHist] in *.
    rewrite (nupd_const _ p _ _ EJ), <- (app_nil_r (nHist s)).
    eapply calm_job; [exact C|exact EJ|discriminate| | |]; cbn; try (destruct (knows meth); discriminate). intros q [].
  - unfold nReadBody in *. destruct (nth_error (nJobs s) p) as [[by_ ph out]|] eqn:EJ; [|exact C].
    destruct ph; try exact C.
    destruct (H7 p _ EJ) as (m1 & a & O1 & O2). cbn [nPh nOut nBytes] in O1, O2.
    destruct O2 as (E1 & E2 & EK & O2 & O3 & O4 & O5).
    rewrite O3 in *. unfold nlog, setJ, setDec, setJobs in *. cbn [nHold nPend nDec nEnc nJobs nHist] in *.
    rewrite (nupd_const _ p _ _ EJ). eapply calm_job; [exact C|exact EJ|discriminate|discriminate|discriminate|].
    intros q [X|[]]. discriminate X.
  - unfold nReturn in *. destruct (nth_error (nJobs s) p) as [[by_ ph out]|] eqn:EJ; [|exact C].
    destruct ph; try exact C. unfold nlog, setJ, setJobs in *. cbn [nHold nPend nDec nEnc nJobs nHist] in *.
    rewrite (nupd_const _ p _ _ EJ). eapply calm_job; [exact C|exact EJ|discriminate|discriminate|discriminate|].
    intros q [X|[]]. discriminate X.
  - unfold nWrite in *. destruct (nth_error (nJobs s) p) as [[by_ ph out]|] eqn:EJ; [|exact C].
    destruct ph; try exact C. unfold setJ, setEnc, setJobs in *. cbn [nHold nPend nDec nEnc nJobs nHist] in *.
    rewrite (nupd_const _ p _ _ EJ), <- (app_nil_r (nHist s)).
    eapply calm_job; [exact C|exact EJ|discriminate|discriminate|discriminate|]. intros q [].
  - unfold nSend in *. destruct (nth_error (nJobs s) p) as [[by_ ph out]|] eqn:EJ; [|exact C].
    destruct ph; try exact C. unfold nlog, setJobs in *. cbn [nHold nPend nDec nEnc nJobs nHist] in *.
    rewrite (nupd_const _ p _ _ EJ). eapply calm_job; [exact C|exact EJ|discriminate|discriminate| |].
    + intros _. left. reflexivity.
    + intros q [X|[]]. discriminate X.
Qed.

Lemma app_one : forall {A} (h : list A) e h1 x h2, h ++ [e] = h1 ++ x :: h2 ->
  (h2 = [] /\ h1 = h /\ x = e) \/ exists h3, h = h1 ++ x :: h3.
Proof.
  intros A h e h1 x h2 E. destruct h2 as [|y h2] using rev_ind.
  - left. apply app_inj_tail in E. destruct E. auto.
  - right. exists h2. rewrite app_comm_cons, app_assoc in E. apply app_inj_tail in E. apply E.
Qed.

Lemma one_other : forall h e, oneByOne h -> (forall p, e <> NBegan p) -> oneByOne (h ++ [e]).
Proof.
  intros h e H NE h1 p h2 E q I. apply app_one in E. destruct E as [(_ & _ & X)|(h3 & E)].
  - exfalso. apply (NE p). auto.
  - eapply H; eassumption.
Qed.

Lemma one_step : forall knows o s, ninv knows s -> calm s -> oneByOne (nHist s) -> oneByOne (nHist (nstep knows o s)).
Proof.
  intros knows o s HI [C1 C2 C3] H1. destruct o; cbn [nstep]; unfold nCall, nGiveUp, nInput, nReadHdr, nReadBody, nReturn, nWrite, nSend, nDone.
  4: { unfold nBegin. destruct (nth_error (nJobs s) p) as [[by_ ph out]|] eqn:EJ; [|exact H1].
    destruct ph; try exact H1. cbn. intros h1 p' h2 E q I. apply app_one in E. destruct E as [(_ & -> & X)|(h3 & E)].
    - injection X as ->. destruct (C3 q I) as (j & K & N). apply (C2 q j K). apply (C1 q j K). intros EH.
      assert (p = q) as EQ; [|rewrite EQ, K in EJ; injection EJ as EJ; rewrite EJ in N; destruct N; reflexivity].
      destruct (Nat.eq_dec p q) as [X|X]; [exact X|].
      assert (nHold s <> Some p) as Y by congruence. pose proof (C1 p _ EJ Y) as Z0. discriminate Z0.
    - eapply H1; eassumption. }
  all: assert (forall e, (forall p, e <> NBegan p) -> oneByOne (nHist s ++ [e])) as G by (intros; apply one_other; assumption);
    repeat match goal with
         | |- context [match ?x with _ => _ end] => destruct x; try exact H1; cbn; try exact H1; try (apply G; discriminate)
         end; cbn; try exact H1; try (apply G; discriminate).
Qed.

Lemma calm_run : forall knows os, noneGivenUp (nHist (nrun knows os)) ->
  ninv knows (nrun knows os) /\ calm (nrun knows os) /\ oneByOne (nHist (nrun knows os)).
Proof.
  intros knows os. induction os as [|o os IH] using rev_ind.
  - intros _. split; [apply ninv_init|]. split; [apply calm_init|]. intros [|x h1] p h2 E; discriminate E.
  - rewrite nrun_snoc. intros HG.
    assert (noneGivenUp (nHist (nrun knows os))) as HG0.
    { intros k I. apply (HG k). destruct (nhist_step knows o (nrun knows os)) as (l & ->). apply in_app_iff. auto. }
    destruct (IH HG0) as (I1 & I2 & I3). pose proof (one_step knows o _ I1 I2 I3) as O.
    split; [apply ninv_step; assumption|]. split; [apply calm_step; assumption|exact O].
Qed.

(** ** C64: a net/rpc call returns what its method returned *)

(** as long as the server deals with the connection's requests one by one, every
    Call that is not given up returns what its method returned for its argument,
    the method having been called once; *)
Theorem C64_own_result_partial : forall knows os k o,
  let h := nHist (nrun knows os) in
  oneByOne h -> In (NReturned k o) h -> o <> NGone -> goodStory knows k o (callStory k h).
Proof.
  intros knows os k o h H1 HR HG. pose proof (ninv_run knows os H1) as HI.
  destruct (n_ret _ _ HI k o HR) as [_ [->|(j & meth & a & b & e & _ & _ & L3 & L4 & L5)]]; [destruct HG; reflexivity|].
  exists meth, a. fold h in L3, L5. rewrite L5.
  destruct L3 as [[L3 ->]|(L3 & -> & -> & ->)].
  - left. split; [exact L3|]. exists b, e. split; [exact L4|reflexivity].
  - right. split; [exact L3|]. split; [exact L4|reflexivity].
Qed.
Print Assumptions C64_own_result_partial.

(** no Call hangs: unless it is the one still waiting for its answer, it has
    returned; and the client does not panic. *)
Theorem C64_no_hang_partial : forall knows os k meth a,
  let s := nrun knows os in
  oneByOne (nHist s) ->
  ~ In NPanicked (nHist s) /\
  (In (NCalled k meth a) (nHist s) -> nHold s = Some k \/ exists o, In (NReturned k o) (nHist s)).
Proof.
  intros knows os k meth a s H1. pose proof (ninv_run knows os H1) as HI. fold s in HI. split; [apply HI|].
  intros HC. destruct (nth_error (nPend s) k) as [[|]|] eqn:E.
  - left. apply (n_hold _ _ HI). exact E.
  - right. apply (n_all _ _ HI). exact E.
  - exfalso. apply nth_error_None in E. rewrite (n_len _ _ HI) in E. apply nth_error_None in E.
    pose proof (n_none _ _ HI k E) as X.
    assert (In (NCalled k meth a) (callStory k (nHist s))) as Y.
    { unfold callStory. apply filter_In. split; [exact HC|]. apply Nat.eqb_refl. }
    rewrite X in Y. exact Y.
Qed.
Print Assumptions C64_no_hang_partial.

(** when no call is given up, the server does deal with the requests one by one:
    the client does not send a request before it has the answer to the one
    before. *)
Theorem C64_one_by_one : forall knows os,
  noneGivenUp (nHist (nrun knows os)) -> oneByOne (nHist (nrun knows os)).
Proof. intros knows os H. apply (calm_run knows os H). Qed.
Print Assumptions C64_one_by_one.

(** so without giving up, calls by any number of goroutines return what their
    methods returned. *)
Theorem C64_own_result_patient : forall knows os k o,
  let h := nHist (nrun knows os) in
  noneGivenUp h -> In (NReturned k o) h -> goodStory knows k o (callStory k h).
Proof.
  intros knows os k o h H HR. apply C64_own_result_partial; [apply C64_one_by_one; exact H|exact HR|].
  intros ->. exact (H k HR).
Qed.
Print Assumptions C64_own_result_patient.

Definition rank (x : nphase) : nat :=
  match x with PNew => 0 | PBegun => 1 | PHdr _ _ => 2 | PRun _ => 3 | PRet _ _ _ => 4 | PWritten => 5 | POver => 6 end.

Definition upto (i k : nat) (s : nst) : Prop :=
  nHold s = Some k /\ exists j, nth_error (nJobs s) k = Some j /\ (i <= rank (nPh j))%nat.

Definition serve (k : nat) (b e : Z) (i : nat) : nop :=
  nth i [DoBegin k; DoReadHdr k; DoReadBody k; DoReturn k b e; DoWrite k; DoSend k] DoInput.

Lemma serve_step : forall knows k b e i s, (i < 6)%nat -> upto i k s -> upto (S i) k (nstep knows (serve k b e i) s).
Proof.
  intros knows k b e i s Hi (HH & [by_ ph out] & HJ & HR). cbn [nPh] in HR.
  assert (forall x, (S i <= rank x)%nat -> nth_error (nJobs s) k = Some (mkNJob by_ ph out) ->
    exists j, nth_error (nupd k (setNPh x) (nJobs s)) k = Some j /\ (S i <= rank (nPh j))%nat) as G.
  { intros x Hx _. rewrite nth_nupd, Nat.eqb_refl, HJ. cbn. eexists. split; [reflexivity|exact Hx]. }
  destruct i as [|[|[|[|[|[|i]]]]]]; [| | | | | |lia]; cbn [serve nth nstep];
    unfold nBegin, nReadHdr, nReadBody, nReturn, nWrite, nSend; rewrite HJ.
  all: destruct ph; cbn in HR; try lia; try (split; [exact HH|eexists; split; [eassumption|cbn; lia]]).
  - split; [exact HH|]. apply G; [cbn; lia|exact HJ].
  - destruct (nDec s) as [|[]]; (split; [exact HH|]); apply G; try exact HJ; cbn; try lia. destruct (knows meth); cbn; lia.
  - destruct (nDec s) as [|[]]; (split; [exact HH|]); apply G; try exact HJ; cbn; lia.
  - split; [exact HH|]. apply G; [cbn; lia|exact HJ].
  - split; [exact HH|]. apply G; [cbn; lia|exact HJ].
  - split; [exact HH|]. cbn. rewrite nth_nupd, Nat.eqb_refl, HJ. cbn. eexists. split; [reflexivity|cbn; lia].
Qed.

Lemma serve_patient : forall knows k b e i s, (i < 6)%nat -> noneGivenUp (nHist s) ->
  noneGivenUp (nHist (nstep knows (serve k b e i) s)).
Proof.
  intros knows k b e i s Hi HG. assert (forall ev, (forall q o, ev <> NReturned q o) -> noneGivenUp (nHist s ++ [ev])) as G.
  { intros ev NE q I. apply in_app_iff in I. destruct I as [I|[I|[]]]; [exact (HG q I)|exact (NE _ _ I)]. }
  destruct i as [|[|[|[|[|[|i]]]]]]; [| | | | | |lia]; cbn [serve nth nstep];
    unfold nBegin, nReadHdr, nReadBody, nReturn, nWrite, nSend; destruct (nth_error (nJobs s) k) as [[by_ ph out]|]; try exact HG;
    destruct ph; try exact HG; cbn; try destruct (nDec s) as [|[]]; cbn; try exact HG; apply G; discriminate.
Qed.

(** nothing stands in the way of an answer: whoever waits gets one once the
    server does what is left to do with its request, whatever the method returns. *)
Theorem C64_answerable : forall knows os k b e,
  let s := nrun knows os in
  noneGivenUp (nHist s) -> nHold s = Some k ->
  exists o, In (NReturned k o)
    (nHist (nrun knows (os ++ [DoBegin k; DoReadHdr k; DoReadBody k; DoReturn k b e; DoWrite k; DoSend k; DoInput]))).
Proof.
  intros knows os k b e s HG HH.
  assert (forall n, (n <= 6)%nat -> let s' := nrun knows (os ++ map (serve k b e) (seq 0 n)) in
    noneGivenUp (nHist s') /\ upto n k s') as A.
  { induction n as [|n IH]; intros Hn.
    - cbn. rewrite app_nil_r. split; [exact HG|]. split; [exact HH|].
      destruct (calm_run knows os HG) as (HI & _ & _).
      assert (k < length (nPend s))%nat as L by (apply nth_len with (x := true); apply (n_hold _ _ HI); exact HH).
      unfold s in L. rewrite (n_len _ _ HI) in L. fold s in L. destruct (nth_error (nJobs s) k) as [j|] eqn:E; [|apply nth_error_None in E; lia].
      exists j. split; [exact E|lia].
    - destruct (IH ltac:(lia)) as [I1 I2]. rewrite seq_S, map_app, app_assoc. cbn [map]. rewrite nrun_snoc. cbn [Nat.add].
      split; [apply serve_patient; [lia|exact I1]|apply serve_step; [lia|exact I2]]. }
  destruct (A 6%nat (le_n _)) as [A1 A2]. cbn in A1, A2.
  set (l := [DoBegin k; DoReadHdr k; DoReadBody k; DoReturn k b e; DoWrite k; DoSend k]) in *.
  change (os ++ [DoBegin k; DoReadHdr k; DoReadBody k; DoReturn k b e; DoWrite k; DoSend k; DoInput]) with (os ++ (l ++ [DoInput])).
  rewrite app_assoc, nrun_snoc. destruct (calm_run knows (os ++ l) A1) as (HI & _ & _).
  set (t := nrun knows (os ++ l)) in *. destruct A2 as (T1 & [by_ ph out] & T2 & T3). cbn [nPh] in T3.
  destruct ph; cbn in T3; try lia.
  destruct (n_job _ _ HI k _ T2) as (meth & a & O1 & O2). cbn [nPh nOut nBytes] in O1, O2.
  destruct O2 as (b' & e' & O2 & O3). subst out. cbn [nstep]. unfold nInput. rewrite T1, T2. unfold rbytes. cbn [nPend].
  rewrite (proj2 (nth_pend (nPend t) k)) by (apply (n_hold _ _ HI); exact T1).
  destruct (negb (e' =? 0)); cbn; eexists; apply in_app_iff; right; left; reflexivity.
Qed.
Print Assumptions C64_answerable.

(** two calls, the second with an error, a third for an unknown method. *)
Definition k12 (m : Z) : bool := (m =? 1) || (m =? 2).
Definition one (k : nat) (b e : Z) : list nop :=
  [DoBegin k; DoReadHdr k; DoReadBody k; DoReturn k b e; DoWrite k; DoSend k; DoInput].
Example C64_ex :
  let h := nHist (nrun k12 ([DoCall 1 7] ++ one 0 8 0 ++ [DoCall 2 9] ++ one 1 3 5 ++ [DoCall 4 9] ++ one 2 3 5)) in
  oneByOne h /\ noneGivenUp h /\
  callStory 0 h = [NCalled 0 1 7; NInvoked 0 1 7; NYielded 0 8 0; NReturned 0 (NOk 8)] /\
  callStory 1 h = [NCalled 1 2 9; NInvoked 1 2 9; NYielded 1 3 5; NReturned 1 (NErr 5)] /\
  callStory 2 h = [NCalled 2 4 9; NReturned 2 (NErr eNoMethod)].
Proof.
  intros h. assert (noneGivenUp h) as G.
  { intros k. vm_compute. intros H. repeat (destruct H as [H|H]; [discriminate H|]). exact H. }
  split; [exact (C64_one_by_one _ _ G)|]. split; [exact G|]. vm_compute. auto.
Qed.

(** it also holds after a call was given up, when the server is done with it
    before it turns to the next. *)
Example C64_one_by_one_ex :
  let h := nHist (nrun k12 ([DoCall 1 7; DoBegin 0; DoGiveUp; DoCall 2 9; DoReadHdr 0; DoReadBody 0; DoReturn 0 8 0; DoWrite 0; DoSend 0]
                     ++ one 1 3 0)) in
  filter (fun e => match e with NReturned _ _ | NBegan _ | NEnded _ => true | _ => false end) h =
    [NBegan 0; NReturned 0 NGone; NEnded 0; NBegan 1; NEnded 1; NReturned 1 (NOk 3)].
Proof. reflexivity. Qed.

(** the next call hangs for ever.  Call 0 is given up while its method runs; the
    server turns to call 1's request, resetting the buffers it has for the
    connection; both responses end up in the same buffer, call 0's first.  The
    client finds the number of call 0, which is not pending any more, and drops
    the answer; the answer to call 1 will not come again. *)
Definition hangOps : list nop :=
  [DoCall 1 7; DoBegin 0; DoReadHdr 0; DoReadBody 0; DoGiveUp;
   DoCall 2 9; DoBegin 1; DoReadHdr 1; DoReadBody 1;
   DoReturn 0 8 0; DoWrite 0; DoReturn 1 3 0; DoWrite 1; DoSend 0; DoSend 1; DoInput].

Theorem C64_hang_refuted :
  let s := nrun k12 hangOps in
  nHist s = [NCalled 0 1 7; NBegan 0; NInvoked 0 1 7; NReturned 0 NGone;
             NCalled 1 2 9; NBegan 1; NInvoked 1 2 9; NYielded 0 8 0; NYielded 1 3 0; NEnded 0; NEnded 1] /\
  nHold s = None /\ nPend s = [false; true].
Proof. vm_compute. auto. Qed.
Print Assumptions C64_hang_refuted.

(** the client process panics.  Call 0 is given up before the server turns to it;
    it does so between encoding the response of call 1 and sending it. *)
Theorem C64_panic_refuted :
  In NPanicked (nHist (nrun k12
    [DoCall 1 7; DoGiveUp; DoCall 2 9; DoBegin 1; DoReadHdr 1; DoReadBody 1; DoReturn 1 3 0; DoWrite 1;
     DoBegin 0; DoSend 1; DoInput])).
Proof. vm_compute. auto 20. Qed.
Print Assumptions C64_panic_refuted.

(** a call is not executed although its server is well: the goroutine of the given
    up request takes the bytes of the new one, and its method is called with the
    new argument, while the new request's goroutine finds nothing and sends no
    answer. *)
Theorem C64_lost_request_refuted :
  let s := nrun k12 [DoCall 1 7; DoBegin 0; DoGiveUp; DoCall 2 9; DoBegin 1; DoReadHdr 0; DoReadBody 0; DoReadHdr 1] in
  nHist s = [NCalled 0 1 7; NBegan 0; NReturned 0 NGone; NCalled 1 2 9; NBegan 1; NInvoked 0 2 9; NEnded 1] /\
  option_map nOut (nth_error (nJobs s) 1) = Some None.
Proof. vm_compute. auto. Qed.
Print Assumptions C64_lost_request_refuted.
