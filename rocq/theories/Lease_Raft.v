(** Two facts about the Raft core that the local reads of Lease_Model need and
    Raft_Props does not: every leader ever elected left its evidence among the
    messages, and a commit index is never ahead of the leader in whose term it
    was reached. *)
From Coq Require Import List Arith Bool Lia.
From Verif Require Import Base Raft_Model Raft_Spec Raft_Abs Raft_InvL Raft_InvL2 Raft_InvC Raft_InvC2 Raft_Inv
  Raft_Refine Raft_Refine2 Raft_Check Raft_Props.
Import ListNotations.

Notation mcm nd := (p_commit (m_p (n_mem nd))).
Notation dcm nd := (p_commit (d_p (n_disk nd))).

Definition votedIn (net : list msg) (v T : nat) : Prop :=
  exists from to c ft mc, fst from = v /\ In (Vote from to c true ft T mc) net.
Definition sentAE (net : list msg) (p : pid) (T : nat) : Prop :=
  exists to lt prev pt es lci mc, In (AppendEntries p to T lt prev pt es lci mc) net.

Section ev.
Variable cfg : list nat.
Hypothesis size : 1 < length cfg.

(** The evidence a leader of term [T] leaves. *)
Definition evid (net : list msg) (gh : ghost) : Prop := forall T p, ld gh T = Some p ->
  gv gh (fst p) T = Some p /\ sentAE net p T /\
  exists Q, majority cfg Q /\ forall v, In v Q -> v = fst p \/ votedIn net v T.

(** [c] was reached in some term, whose leader (if it still leads) has it. *)
Definition just (f : nat -> node) (gh : ghost) (c : nat) : Prop :=
  c = 0 \/ exists T0 i0, c <= i0 /\ chosen cfg gh T0 i0 /\
    forall k, nrole (f k) = Leader -> mt (f k) = T0 -> c <= mcm (f k).
Definition allJust (f : nat -> node) (net : list msg) (gh : ghost) : Prop :=
  (forall k, just f gh (mcm (f k)) /\ just f gh (dcm (f k))) /\
  (forall from to T lt prev pt es lci mc, In (AppendEntries from to T lt prev pt es lci mc) net -> just f gh lci).

Lemma just_le : forall f gh c d, just f gh c -> d <= c -> just f gh d.
Proof.
  intros f gh c d [->|(T0 & i0 & A & B & C)] L; [left; lia|]. right. exists T0, i0. split; [lia|]. split; auto.
  intros k Hr Ht. specialize (C k Hr Ht). lia.
Qed.

Lemma net_grows : forall strong n nd net nd' net', nstep cfg strong n nd net nd' net' -> incl net net'.
Proof. intros strong n nd net nd' net' H. destruct H; try apply incl_refl; apply incl_appl, incl_refl. Qed.

Lemma votedIn_incl : forall net net' v T, incl net net' -> votedIn net v T -> votedIn net' v T.
Proof. intros net net' v T H (a & b & c & d & e & E & Hi). exists a, b, c, d, e. auto. Qed.
Lemma sentAE_incl : forall net net' p T, incl net net' -> sentAE net p T -> sentAE net' p T.
Proof. intros net net' p T H (a & b & c & d & e & g & h & Hi). exists a, b, c, d, e, g, h. auto. Qed.

(** A node that is a leader after a small step was the leader of that term
    before it, with no larger commit index, or has just been elected. *)
Lemma lead_or_was : forall n nd net nd' net', nstep cfg true n nd net nd' net' -> nrole nd' = Leader ->
  (nrole nd = Leader /\ mt nd = mt nd' /\ mcm nd <= mcm nd') \/
  (exists p i vs np np' ps d, nd = mkN (mkM p Candidate i vs np ps) d /\
     nd' = mkN (mkM (set_mc (p_term p) p) Leader i vs np' ps) (mkD (set_mc (p_term p) p) (d_log d ++ [mkE (p_term p) noopCmd])) /\
     length cfg < 2 * (1 + countVotes true vs) /\
     net' = net ++ map (newAE n (mkM (set_mc (p_term p) p) Leader i vs np' ps) (d_log d ++ [mkE (p_term p) noopCmd])
                          (length (d_log d)) 1) (others cfg n)).
Proof.
  intros n nd net nd' net' H Hr.
  destruct H; cbn in Hr |- *; try discriminate; try (left; split; [assumption|split; [reflexivity|lia]]).
  - left. destruct H as [->| ->]; [auto|discriminate].
  - right. exists p, i, vs, np, np', ps, d. split; [reflexivity|]. split; [reflexivity|]. split; [assumption|reflexivity].
  - left. auto.
Qed.

Lemma countVotes_in : forall vs, countVotes true vs = length (map fst (filter (fun x => Bool.eqb (snd x) true) vs)).
Proof. intros. unfold countVotes. rewrite map_length. auto. Qed.

Lemma evid_step : forall n nd net nd' net', nstep cfg true n nd net nd' net' ->
  forall f gh gh', InvL cfg f net gh -> InvC cfg f net gh -> f n = nd ->
  gext n gh gh' -> newld n nd' gh gh' -> evid net gh -> evid net' gh'.
Proof.
  intros n nd net nd' net' H f gh gh' I IC En E NL EV T p Hp.
  pose proof (net_grows _ _ _ _ _ _ H) as Hinc.
  destruct (NL T p Hp) as [Hold|(Ep & ET & Hr & Hg)].
  - destruct (EV T p Hold) as (A & B & Q & HQ & C). split; [apply (ge_gv _ _ _ E); auto|].
    split; [eapply sentAE_incl; eauto|]. exists Q. split; auto. intros v Hv.
    destruct (C v Hv); auto. right. eapply votedIn_incl; eauto.
  - destruct (lead_or_was n nd net nd' net' H Hr) as [(Hr0 & Hm & _)|(q & i & vs & np & np' & ps & d & E1 & E2 & Hm & E3)].
    + (* it led this term already *)
      pose proof (nl_lead _ _ _ _ (proj1 I n)) as X. rewrite En in X. destruct (X Hr0) as (A & _).
      rewrite Hm, <- ET in A. pose proof (ge_ld _ _ _ E _ _ A) as A'. assert (Ei : p = (n, ninc nd)) by congruence.
      rewrite Ei in *. destruct (EV _ _ A) as (A1 & B & Q & HQ & C). split; [apply (ge_gv _ _ _ E); auto|].
      split; [eapply sentAE_incl; eauto|]. exists Q. split; auto. intros v Hv.
      destruct (C v Hv); auto. right. eapply votedIn_incl; eauto.
    + subst p. split; [exact Hg|]. subst nd'. cbn in ET, Hr. cbn [m_inc n_mem].
      pose proof (proj1 I n) as HN. rewrite En, E1 in HN. destruct (nl_cand _ _ _ _ HN eq_refl) as (C1 & C2 & C3 & C4 & C5).
      cbn in C1, C3, C4, C5. pose proof (proj1 IC n) as HC. rewrite En, E1 in HC.
      destruct (nc_cand _ _ _ _ _ _ HC eq_refl) as (_ & C6). cbn in C6.
      set (Q := n :: map fst (filter (fun x => Bool.eqb (snd x) true) vs)).
      assert (Hin : forall v, In v (map fst (filter (fun x => Bool.eqb (snd x) true) vs)) -> In (v, true) vs).
      { intros v Hv. apply in_map_iff in Hv. destruct Hv as ((w & b) & <- & Hv). apply filter_In in Hv.
        destruct Hv as (Hv & Hb). destruct b; [exact Hv|discriminate]. }
      assert (HQ : majority cfg Q).
      { split; [|split].
        - constructor.
          + intros Hi. apply Hin in Hi. destruct (C5 _ Hi). congruence.
          + clear - C4. induction vs as [|[v b] vs IH]; simpl; [constructor|]. inversion C4; subst.
            destruct b; simpl; auto. constructor; auto. intros Hi. apply H1. apply in_map_iff in Hi.
            destruct Hi as (x & Hx & Hi). apply filter_In in Hi. apply in_map_iff. exists x. tauto.
        - intros v [<-|Hv]; [assumption|]. apply Hin in Hv. apply (C5 v Hv).
        - unfold Q. cbn [length]. rewrite <- countVotes_in. lia. }
      split.
      * (* somebody else was sent its first AppendEntries *)
        assert (Ho : exists v, In v (others cfg n)).
        { destruct (map fst (filter (fun x => Bool.eqb (snd x) true) vs)) as [|v r] eqn:Ev.
          - exfalso. rewrite countVotes_in, Ev in Hm. simpl in Hm. lia.
          - exists v. apply filter_In. assert (Hv : In (v, true) vs) by (apply Hin; left; auto).
            destruct (C5 v Hv) as (X1 & X2 & _). split; auto. apply negb_true_iff, Nat.eqb_neq. auto. }
        destruct Ho as (v & Hv). unfold sentAE, newAE in *. subst net'. do 7 eexists. apply in_app_iff. right.
        apply in_map_iff. exists v. split; [|exact Hv]. cbn. subst T. reflexivity.
      * exists Q. split; auto. intros v [<-|Hv]; [left; reflexivity|right]. apply Hin in Hv.
        destruct (C6 v Hv) as (from & to & ft & mc & F1 & F2). exists from, to, (n, i), ft, mc. split; auto.
        subst T. auto.
Qed.

Lemma just_step : forall n nd net nd' net', nstep cfg true n nd net nd' net' ->
  forall f f' gh gh', InvL cfg f net gh -> f n = nd -> (forall k, k <> n -> f' k = f k) -> f' n = nd' ->
  gext n gh gh' -> forall c, just f gh c -> just f' gh' c.
Proof.
  intros n nd net nd' net' H f f' gh gh' I En Hf Hn E c [->|(T0 & i0 & A & B & C)]; [left; auto|].
  right. exists T0, i0. split; auto. split; [eapply chosen_ext; eauto|]. intros k Hr Ht.
  destruct (Nat.eq_dec k n) as [->|Hk]; [|rewrite Hf in * by auto; auto].
  rewrite Hn in *. destruct (lead_or_was n nd net nd' net' H Hr) as [(Hr0 & Hm & Hc)|(q & i & vs & np & np' & ps & d & E1 & E2 & Hm & E3)].
  - specialize (C n). rewrite En in C. specialize (C Hr0). lia.
  - exfalso. rewrite E1 in En. rewrite E2 in Ht. cbn in Ht. rewrite <- Ht in B.
    destruct (lead_unique cfg f net gh n vs I ltac:(rewrite En; auto) ltac:(rewrite En; auto) Hm) as (_ & Hld).
    rewrite En in Hld. cbn in Hld. destruct B as (B1 & _).
    destruct (tl gh (p_term q)) eqn:Et; [simpl in B1; lia|].
    apply (proj1 (gl_tl _ _ (proj1 (proj2 I)) (p_term q))); [rewrite Et; discriminate|auto].
Qed.

Lemma allJust_step : forall n nd net nd' net', nstep cfg true n nd net nd' net' ->
  forall f f' gh gh', InvL cfg f net gh -> InvC cfg f' net' gh' -> InvL cfg f' net' gh' ->
  f n = nd -> (forall k, k <> n -> f' k = f k) -> f' n = nd' ->
  gext n gh gh' -> allJust f net gh -> allJust f' net' gh'.
Proof.
  intros n nd net nd' net' H f f' gh gh' I IC' I' En Hf Hn E (A & B).
  pose proof (just_step _ _ _ _ _ H f f' gh gh' I En Hf Hn E) as J.
  assert (Jn : just f' gh' (mcm nd) /\ just f' gh' (dcm nd)) by (rewrite <- En; split; apply J, A).
  destruct Jn as (Jm & Jd).
  assert (N : just f' gh' (mcm nd') /\ just f' gh' (dcm nd')).
  { destruct H; cbn in Jm, Jd |- *; auto.
    - (* commitAE *) split; auto. eapply just_le; [apply J; eapply B; eauto|auto].
    - (* commitLead *) split; auto. right.
      pose proof (proj1 IC' n) as HC. rewrite Hn in HC. pose proof (nc_cm _ _ _ _ _ _ HC) as HP. cbn in HP.
      destruct (nl_lead _ _ _ _ (proj1 I' n)) as (L1 & L2 & L3 & L4); [rewrite Hn; auto|].
      rewrite Hn in L1, L2, L3, L4. cbn in L1, L2, L3, L4.
      destruct HP as [HP|(T0 & i0 & P1 & P2 & P3 & P4)]; [lia|].
      assert (ET : T0 = p_term (m_p m)).
      { destruct (Nat.eq_dec T0 (p_term (m_p m))) as [|NE]; auto. exfalso.
        pose proof (termAt_pre _ ci _ _ P4 (le_n _)) as Z. rewrite H5 in Z.
        destruct (termAt_ex (tl gh' T0) ci) as (e & He & Hte); [split; [lia|]; apply P4|].
        destruct (gl_log _ _ (proj1 (proj2 I')) T0 (ci - 1) e He) as (Z1 & _). lia. }
      exists T0, i0. split; auto. split; auto. intros k Hr Ht.
      destruct (nl_lead _ _ _ _ (proj1 I' k) Hr) as (K1 & _). rewrite Ht, ET, L1 in K1. injection K1 as -> _.
      rewrite Hn. cbn. lia. }
  split.
  - intros k. destruct (Nat.eq_dec k n) as [->|Hk]; [rewrite Hn; auto|]. rewrite Hf by auto. split; apply J, A.
  - destruct H; cbn in *; try (intros; eapply J, B; eauto; fail).
    all: intros from0 to0 T0 lt0 prev0 pt0 es0 lci0 mc0 Hi; apply in_app_iff in Hi; destruct Hi as [Hi|Hi];
      [eapply J, B; eauto|].
    all: try (destruct Hi as [Hi|[]]; try discriminate).
    + apply in_map_iff in Hi. destruct Hi as (v & Hv & _). unfold newAE in Hv. injection Hv as <- <- <- <- <- <- <- <- <-.
      apply N.
    + injection Hi as <- <- <- <- <- <- <- <- <-. apply N.
Qed.

Definition RInv (f : nat -> node) (net : list msg) (gh : ghost) : Prop :=
  InvL cfg f net gh /\ InvC cfg f net gh /\ evid net gh /\ allJust f net gh.

Lemma just_same : forall f f' gh c, (forall k, f' k = f k) -> just f gh c -> just f' gh c.
Proof.
  intros f f' gh c E [->|(T0 & i0 & A & B & C)]; [left; auto|]. right. exists T0, i0. split; auto. split; auto.
  intros k. rewrite E. auto.
Qed.

Lemma nstar_RInv : forall n nd net nd' net', nstar cfg true n nd net nd' net' ->
  forall f f' gh, RInv f net gh -> f n = nd -> (forall k, k <> n -> f' k = f k) -> f' n = nd' ->
  exists gh', gmono gh gh' /\ RInv f' net' gh' /\ forall c, just f gh c -> just f' gh' c.
Proof.
  induction 1 as [nd net|nd1 net1 nd2 net2 nd3 net3 H H1 IH]; intros f f' gh (I & IC & EV & J) En Hf Hn.
  - exists gh. split; [apply gmono_refl|].
    assert (Hall : forall k, f' k = f k) by (intros k; destruct (Nat.eq_dec k n) as [->|]; [congruence|auto]).
    assert (FE : fext n f f' gh gh) by (constructor; auto using gext_refl; intros; rewrite Hall; auto).
    split; [|intros; eapply just_same; eauto]. split; [|split; [|split; [exact EV|]]].
    + eapply InvL_mem; eauto; [rewrite <- En; apply I|rewrite <- En; apply rvok_same; auto].
    + rewrite <- (app_nil_r net). eapply InvC_frame; eauto.
      * rewrite <- En. eapply nodeC_ext; eauto; [apply I|apply IC].
      * eapply ghostC_same; eauto. apply IC.
      * simpl; tauto.
    + destruct J as (J1 & J2). split.
      * intros k. rewrite Hall. split; eapply just_same; eauto; apply J1.
      * intros. eapply just_same; eauto.
  - destruct (nstep_inv _ _ _ _ _ _ _ H f (upd f n nd2) gh I En) as (gh1 & G1 & I1 & C1 & NL).
    { intros; apply upd_other; auto. }
    { apply upd_same. }
    specialize (C1 eq_refl IC).
    assert (R1 : RInv (upd f n nd2) net2 gh1).
    { split; auto. split; auto. split.
      - eapply evid_step; eauto.
      - eapply (allJust_step _ _ _ _ _ H f); eauto; [intros; apply upd_other; auto|apply upd_same]. }
    destruct (IH (upd f n nd2) f' gh1 R1) as (gh2 & G2 & R2 & J2).
    + apply upd_same.
    + intros k Hk. rewrite upd_other; auto.
    + auto.
    + exists gh2. split; [eapply gmono_trans; eauto; eapply gext_gmono; eauto|]. split; auto.
      intros c Hc. apply J2. eapply (just_step _ _ _ _ _ H f); eauto; [intros; apply upd_other; auto|apply upd_same].
Qed.

Lemma step_RInv : forall g n ev cut g' gh, guarded cfg g n ev cut -> step cfg g n ev cut = Some g' ->
  RInv (g_node g) (g_net g) gh ->
  exists gh', gmono gh gh' /\ RInv (g_node g') (g_net g') gh' /\
    forall c, just (g_node g) gh c -> just (g_node g') gh' c.
Proof.
  intros g n ev cut g' gh (O1 & O2 & O3 & O4) Hs R.
  destruct (step_refines cfg true g n ev cut g' gh (proj1 R)) as (R1 & R2); auto.
  { intros _. apply R. }
  apply (nstar_RInv _ _ _ _ _ R1 (g_node g) (g_node g') gh R); auto.
Qed.
Lemma RInv_init : RInv (g_node ginit) (g_net ginit) gh0.
Proof.
  split; [apply InvL_init|]. split; [apply InvC_init|]. split.
  - intros T p H. discriminate.
  - split; [|simpl; tauto]. intros k. split; left; reflexivity.
Qed.
End ev.
