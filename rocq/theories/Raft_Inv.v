(** Every small step of one node preserves the invariants, with the history
    growing monotonically. *)
From Coq Require Import List Arith Bool Lia.
From Verif Require Import Base Raft_Model Raft_Spec Raft_Abs Raft_InvL Raft_InvL2 Raft_InvC Raft_InvC2.
Import ListNotations.

(** The history only grows. *)
Record gmono (gh gh' : ghost) : Prop := mkGmono {
  gm_ld : forall T p, ld gh T = Some p -> ld gh' T = Some p;
  gm_tl : forall T, exists c, tl gh' T = tl gh T ++ c;
  gm_acc : forall k T, acc gh k T <= acc gh' k T
}.
Lemma gmono_refl : forall gh, gmono gh gh.
Proof. intros; constructor; auto. intros; exists []; rewrite app_nil_r; auto. Qed.
Lemma gmono_trans : forall a b c, gmono a b -> gmono b c -> gmono a c.
Proof.
  intros a b c [A1 A2 A3] [B1 B2 B3]. constructor; auto.
  - intros T. destruct (A2 T) as [x Ex], (B2 T) as [y Ey]. exists (x ++ y). rewrite Ey, Ex, app_assoc. auto.
  - intros k T. specialize (A3 k T). specialize (B3 k T). lia.
Qed.
Lemma gext_gmono : forall n gh gh', gext n gh gh' -> gmono gh gh'.
Proof. intros n gh gh' []. constructor; auto. Qed.

(** The history gains a leader of a term only when the acting node is in that
    role and term. *)
Definition newld (n : nat) (nd' : node) (gh gh' : ghost) : Prop := forall T p, ld gh' T = Some p ->
  ld gh T = Some p \/ (p = (n, ninc nd') /\ T = mt nd' /\ nrole nd' = Leader /\ gv gh' n T = Some p).
Lemma newld_same : forall n nd' gh gh', ld gh' = ld gh -> newld n nd' gh gh'.
Proof. intros n nd' gh gh' E T p H. rewrite E in H. auto. Qed.

Section inv.
Variable cfg : list nat.
Notation InvL := (InvL cfg).
Notation InvC := (InvC cfg).
Notation nodeL := (nodeL cfg).
Notation nodeC := (nodeC cfg).

Ltac red_n := cbn [n_mem n_disk d_p d_log m_p m_role m_inc m_votes m_noop m_peers set_p set_mc set_commit
  set_term_vote set_applied p_term p_vote p_mc p_commit p_applied] in *.

Lemma node_step : forall n f f' net gh nd' strong,
  InvL f net gh -> (forall k, k <> n -> f' k = f k) -> f' n = nd' ->
  dt (f n) <= dt nd' -> nodeL gh n nd' -> rvok (f n) nd' ->
  (strong = true -> InvC f net gh -> forall f'', fext n f f'' gh gh -> nodeC f'' net gh n (f n) -> nodeC f'' net gh n nd') ->
  exists gh', gext n gh gh' /\ InvL f' net gh' /\ (strong = true -> InvC f net gh -> InvC f' net gh') /\ newld n nd' gh gh'.
Proof.
  intros n f f' net gh nd' strong I Hf Hn Hd N R C. exists gh. split; [apply gext_refl|].
  split; [eapply InvL_mem; eauto|]. split; [|apply newld_same; auto]. intros Hs IC. 
  assert (FE : fext n f f' gh gh).
  { constructor; auto using gext_refl.
    intros v. destruct (Nat.eq_dec v n) as [->|]; [rewrite Hn; auto|rewrite Hf; auto]. }
  rewrite <- (app_nil_r net). eapply InvC_frame; eauto.
  - rewrite app_nil_r. apply C; auto. rewrite <- (app_nil_r net). eapply nodeC_ext; eauto; [apply I|apply IC].
  - eapply ghostC_same; eauto. apply IC.
  - simpl; tauto.
Qed.

Lemma send_step : forall n f f' net gh x nd' strong,
  InvL f net gh -> (forall k, k <> n -> f' k = f k) -> f' n = f n ->
  msgL f' gh x ->
  (strong = true -> InvC f net gh -> forall f'', fext n f f'' gh gh -> msgC cfg f'' (net ++ [x]) gh x) ->
  exists gh', gext n gh gh' /\ InvL f' (net ++ [x]) gh' /\ (strong = true -> InvC f net gh -> InvC f' (net ++ [x]) gh') /\ newld n nd' gh gh'.
Proof.
  intros n f f' net gh x nd' strong I Hf Hn M C. exists gh. split; [apply gext_refl|].
  split; [eapply InvL_send; eauto|]. split; [|apply newld_same; auto]. intros Hs IC. eapply InvC_send; eauto.
Qed.

Lemma nstep_inv : forall strong n nd net nd' net', nstep cfg strong n nd net nd' net' ->
  forall f f' gh, InvL f net gh -> f n = nd -> (forall k, k <> n -> f' k = f k) -> f' n = nd' ->
  exists gh', gext n gh gh' /\ InvL f' net' gh' /\ (strong = true -> InvC f net gh -> InvC f' net' gh') /\ newld n nd' gh gh'.
Proof.
  intros strong n nd net nd' net' H f f' gh I En Hf Hn.
  pose proof (proj1 I n) as HN. rewrite En in HN.
  destruct H.
  - (* save *)
    exists (ghVote gh n (mt (f n)) (mv (f n))).
    assert (Fr : forall p, gv gh n (mt (f n)) = Some p -> mv (f n) = Some p).
    { intros p Hp. rewrite En in *. eapply gv_fresh; eauto. }
    assert (E : gext n gh (ghVote gh n (mt (f n)) (mv (f n)))) by (apply gext_vote; auto).
    split; auto. split; [|split; [|apply newld_same, ld_ghVote]].
    + eapply InvL_save; eauto. rewrite En; auto.
    + intros _ IC. eapply InvC_node; eauto.
      * apply tl_ghVote.
      * apply ld_ghVote.
      * apply acc_ghVote.
      * rewrite En. red_n. apply (nl_le _ _ _ _ HN).
      * intros f'' net'' _ HC. rewrite En in HC |- *. apply (nodeC_save cfg _ _ _ _ m d); auto. apply (nl_le _ _ _ _ HN).
  - (* local *)
    eapply node_step; eauto.
    + rewrite En; auto.
    + eapply nodeL_local; eauto.
    + rewrite En. apply rvok_same; auto. red_n. intros ->. destruct H; congruence.
    + intros _ _ f'' _. rewrite En. apply nodeC_local; auto.
  - (* elect *)
    eapply node_step; eauto.
    + rewrite En; auto.
    + eapply nodeL_elect; eauto.
    + rewrite En. split; auto. red_n. intros _. split; [destruct (is_foll r); lia|].
      intros Hm _. destruct r; red_n; simpl in *; try congruence; [lia|auto].
    + intros _ _ f'' _. rewrite En. apply nodeC_elect; auto. destruct (is_foll r); lia.
  - (* sendRV *)
    eapply send_step; eauto; [congruence| |simpl; auto].
    simpl. rewrite Hn. red_n. split; auto. split; [|auto].
    destruct HN. red_n. lia.
  - (* term *)
    eapply node_step; eauto.
    + rewrite En; auto.
    + eapply nodeL_term; eauto.
    + rewrite En. split; auto. red_n. intros _. split; [lia|]. intros; lia.
    + intros _ _ f'' _. rewrite En. apply nodeC_term. lia.
  - (* mc *)
    eapply node_step; eauto.
    + rewrite En; auto.
    + eapply nodeL_mc; eauto.
    + rewrite En. apply rvok_same; auto.
    + intros _ _ f'' _. rewrite En. intros HC. apply nodeC_p; auto. apply (nc_cm _ _ _ _ _ _ HC).
  - (* vote *)
    subst p'.
    assert (Fr : forall p, gv gh n (mt (f n)) = Some p -> Some c = Some p).
    { intros p Hp. rewrite En in Hp. destruct (gv_fresh cfg gh n _ p HN Hp) as (X & _). red_n. destruct H0; congruence. }
    assert (E : gext n gh (ghVote gh n (mt (f n)) (Some c))) by (apply gext_vote; auto).
    exists (ghVote gh n (mt (f n)) (Some c)). split; auto. split; [|split; [|apply newld_same; auto]].
    + eapply InvL_vote; eauto; rewrite En; auto.
    + intros _ IC. eapply InvC_node; eauto.
      * rewrite En. red_n. apply (nl_le _ _ _ _ HN).
      * intros f'' net'' _ HC. rewrite En in HC |- *.
        pose proof (nl_le _ _ _ _ HN).
        apply (nodeC_save cfg f'' net'' (ghVote gh n (p_term (m_p m)) (Some c)) n
                 (set_p (set_term_vote (p_term (m_p m)) (Some c) (m_p m)) m) d); auto.
        apply nodeC_p; auto. apply (nc_cm _ _ _ _ _ _ HC).
  - (* sendVote *)
    destruct (proj2 (proj2 I) _ H) as (A & B & C & D).
    eapply send_step; eauto; [congruence| |].
    + simpl. split; auto. intros _. split; auto. rewrite <- H1. apply (nl_dv _ _ _ _ HN); auto.
    + intros _ (CN & CG & CM) f'' FE. cbn [msgC fst].
      exists n, li, lt, mc. split; [apply in_app_iff; auto|]. intros T i HT Hi Hti.
      pose proof (CN n) as CNn. rewrite En in CNn.
      destruct (nc_log _ _ _ _ _ _ CNn T i Hi Hti) as [Y|Y]; [left|right; eapply dead_ext; eauto].
      destruct (holds_last cfg gh n _ T i HN (proj1 (proj2 I)) ltac:(lia) Y Hti) as (Z1 & Z2). red_n.
      destruct H0 as [Z|[Z|(Z & Z')]]; [rewrite Z in Z2; simpl in Z2; lia|lia|lia].
  - (* sendNo *)
    eapply send_step; eauto; [congruence| |simpl; auto].
    simpl. split; auto. discriminate.
  - (* count *)
    destruct (proj2 (proj2 I) _ H) as (A & B).
    eapply node_step; eauto.
    + rewrite En; auto.
    + destruct HN; constructor; red_n; auto.
      intros Hr. destruct (nl_cand Hr) as (C1 & C2 & C3 & C4 & C5). split; auto. split; auto. split; auto.
      split; [simpl; constructor; auto|]. intros v [Hv|Hv]; auto. injection Hv as <-.
      destruct (B eq_refl). split; auto.
    + rewrite En. apply rvok_same; auto.
    + intros _ _ f'' _. rewrite En. intros HC. destruct HC; constructor; red_n; auto; try discriminate.
      intros Hr. destruct (nc_cand Hr) as (C1 & C2). split.
      * intros q j Hq. destruct (H2 q j Hq); eauto.
      * intros v [Hv|Hv]; auto. injection Hv as <-. exists from, to, ft, mc. auto.
  - (* lead *)
    subst p' l' m'.
    pose proof (InvL_lead cfg f f' net gh n np' I Hf) as X. pose proof (InvC_lead cfg f f' net gh n np' I) as Y.
    rewrite En in X, Y. red_n. eexists. split; [|split; [apply X; auto|split; [intros _ IC; apply Y; auto|]]].
    2:{ intros T q. cbn [ld ghLead]. unfold upd. destruct (Nat.eqb_spec T (p_term p)) as [->|]; [|auto].
        intros Hq. injection Hq as <-. right. cbn. rewrite upd2_same. auto. }
    destruct (lead_unique cfg f net gh n vs I ltac:(rewrite En; auto) ltac:(rewrite En; auto) H) as (_ & Hld).
    rewrite En in Hld. red_n. pose proof I as (_ & HG & _).
    assert (Ht : tl gh (p_term p) = []).
    { destruct (tl gh (p_term p)) eqn:E; auto. exfalso. apply (proj1 (gl_tl _ _ HG (p_term p))); [rewrite E; discriminate|auto]. }
    apply gext_lead; auto.
    + pose proof (gl_acc _ _ HG n (p_term p)) as Z. rewrite Ht in Z. exact Z.
    + intros q Hq. destruct (gv_fresh cfg gh n _ q HN Hq) as (Z & _). destruct (nl_cand _ _ _ _ HN eq_refl) as (Z' & _).
      red_n. congruence.
  - (* append *)
    pose proof (InvL_append cfg f f' net gh n c I Hf) as X. pose proof (InvC_append cfg f f' net gh n c I) as Y.
    rewrite En in X, Y. red_n. eexists. split; [|split; [apply X; auto|split; [intros _ IC; apply Y; auto|apply newld_same; auto]]].
    destruct (nl_lead _ _ _ _ HN H) as (A & B & C & D). red_n.
    eapply gext_tl; eauto; [rewrite C; reflexivity|apply (gl_acc _ _ (proj1 (proj2 I)))].
  - (* sendAE *)
    destruct (nl_lead _ _ _ _ HN H) as (A & B & C & D). red_n.
    pose proof I as (_ & HG & _).
    assert (Hne : tl gh (p_term (m_p m)) <> []) by (apply (gl_tl _ _ HG); congruence).
    assert (Hlen : 0 < length (d_log d)) by (rewrite <- C; destruct (tl gh (p_term (m_p m))); simpl; [congruence|lia]).
    eapply send_step; eauto; [congruence| |].
    + cbn [msgL]. rewrite !C, terms_length, firstn_all. split; auto. split; auto.
      split. { destruct (nth_some _ _ 0 Hlen) as [e He]. destruct (nl_log _ _ _ _ HN _ _ He). red_n. lia. }
      split; [lia|]. split; auto.
      split; [rewrite <- lastTerm_termAt, <- C; apply (gl_last _ _ HG); congruence|].
      subst es. split; [rewrite firstn_length, skipn_length; lia|].
      split; [symmetry; apply firstn_self|]. split; auto.
    + intros Hs (CN & CG & CM) f'' FE. cbn [msgC]. rewrite terms_length.
      pose proof (CN n) as CNn. rewrite En in CNn. pose proof (nc_cm _ _ _ _ _ _ CNn) as Hcm. red_n.
      split; [|split].
      * intros Hes. specialize (H3 Hs Hes). subst es. rewrite firstn_length, skipn_length. lia.
      * apply (cpre_len _ _ _ _ _ Hcm).
      * rewrite C. auto.
  - (* commitAE *)
    eapply node_step; eauto.
    + rewrite En; auto.
    + apply nodeL_p; auto.
    + rewrite En; apply rvok_same; auto.
    + intros Hs (CN & CG & CM) f'' FE. rewrite En. intros HC. apply nodeC_p; auto. red_n.
      pose proof (CM _ H) as X. cbn [msgC] in X. destruct X as (_ & _ & X).
      eapply cpre_T; eauto. eapply cpre_log; [eapply cpre_le; eauto|].
      eapply pre_le; [|exact H2]. eapply (ae_common cfg f gh n (mkN m d)); eauto; [apply I|apply (proj2 (proj2 I) _ H)].
  - (* commitLead *)
    eapply node_step; eauto.
    + rewrite En; auto.
    + apply nodeL_p; auto.
    + rewrite En; apply rvok_same; auto.
    + intros Hs IC f'' FE. rewrite En. intros HC. apply nodeC_p; auto; red_n; [lia|].
      destruct (nl_lead _ _ _ _ HN H) as (A & B & C & D). red_n.
      pose proof (proj1 IC n) as CNn. rewrite En in CNn.
      right. exists (p_term (m_p m)), ci. split; auto. split; auto. rewrite C. split; [|apply pre_refl; auto].
      split; [rewrite C; lia|]. split; [rewrite C; auto|].
      eapply majority_matches; eauto.
  - (* apply *)
    eapply node_step; eauto.
    + rewrite En; auto.
    + apply nodeL_p; auto.
    + rewrite En; apply rvok_same; auto.
    + intros _ _ f'' _. rewrite En. apply nodeC_apply.
  - (* match *)
    eapply node_step; eauto.
    + rewrite En; auto.
    + destruct HN; constructor; red_n; auto; discriminate.
    + rewrite En; apply rvok_same; auto.
    + intros Hs (CN & CG & CM) f'' FE. rewrite En. intros HC. pose proof (CM _ H) as X. cbn [msgC] in X.
      destruct HC; constructor; red_n; auto; try discriminate.
      intros Hr q j Hq. destruct (H2 q j Hq) as [->|[Hq'|(-> & ->)]]; [lia|eauto|].
      subst k. apply X. auto.
  - (* write *)
    destruct (nodeL_write cfg f gh n m d net from to lt prev pt es lci mc k I HN H H0 H1 H2 H3) as (_ & N).
    eapply node_step; eauto.
    + rewrite En; auto.
    + rewrite En. split; auto. red_n. intros _. split; auto. intros _ Hr; congruence.
    + intros _ IC f'' FE _. eapply nodeC_write; eauto.
  - (* ack *)
    pose proof (proj2 (proj2 I) _ H) as X. pose proof I as (_ & HG & _).
    pose proof (ae_common cfg f gh n (mkN m d) _ _ _ _ _ _ _ _ _ HN HG X) as HP. red_n. fold c in HP.
    destruct strong.
    2:{ eapply send_step; eauto; try congruence; simpl; auto. }
    destruct (Nat.eq_dec t T) as [->|Hne].
    2:{ eapply send_step; eauto; try congruence; simpl; congruence. }
    destruct (H0 eq_refl) as (E1 & E2).
    set (x := if rej then lcri else length (d_log d)).
    assert (Hx : pre x (d_log d) (tl gh T)).
    { subst x. destruct rej; [rewrite H1 by auto; auto|]. eapply ack_pre; eauto. }
    assert (I1 : InvL f net (ghAcc gh n T x)) by (apply InvL_acc; auto; apply Hx).
    exists (ghAcc gh n T x). split; [apply gext_acc|]. split; [|split; [|apply newld_same; auto]].
    + eapply InvL_send; eauto; try congruence; simpl; auto.
    + intros _ IC. assert (IC1 : InvC f net (ghAcc gh n T x)).
      { apply InvC_acc; auto; rewrite En; auto. }
      eapply InvC_send; eauto; [congruence|].
      intros f'' _. cbn [msgC fst acc ghAcc]. intros _. rewrite upd2_same. fold x. lia.
  - (* crash *)
    eapply node_step; eauto.
    + rewrite En; auto.
    + apply nodeL_restart; auto.
    + rewrite En. unfold restart. split; red_n; [lia|]. intros; lia.
    + intros _ _ f'' _. rewrite En. apply nodeC_restart.
Qed.

Lemma nstar_inv : forall strong n nd net nd' net', nstar cfg strong n nd net nd' net' ->
  forall f f' gh, InvL f net gh -> f n = nd -> (forall k, k <> n -> f' k = f k) -> f' n = nd' ->
  exists gh', gmono gh gh' /\ InvL f' net' gh' /\ (strong = true -> InvC f net gh -> InvC f' net' gh').
Proof.
  induction 1 as [nd net|nd1 net1 nd2 net2 nd3 net3 H H1 IH]; intros f f' gh I En Hf Hn.
  - exists gh. split; [apply gmono_refl|].
    assert (Hall : forall k, f' k = f k) by (intros k; destruct (Nat.eq_dec k n) as [->|]; [congruence|auto]).
    assert (FE : fext n f f' gh gh) by (constructor; auto using gext_refl; intros; rewrite Hall; auto).
    split.
    + eapply InvL_mem; eauto; [rewrite <- En; apply I|rewrite <- En; apply rvok_same; auto].
    + intros _ IC. rewrite <- (app_nil_r net). eapply InvC_frame; eauto.
      * rewrite <- En. eapply nodeC_ext; eauto; [apply I|apply IC].
      * eapply ghostC_same; eauto. apply IC.
      * simpl; tauto.
  - destruct (nstep_inv _ _ _ _ _ _ H f (upd f n nd2) gh I En) as (gh1 & G1 & I1 & C1 & _).
    + intros; apply upd_other; auto.
    + apply upd_same.
    + destruct (IH (upd f n nd2) f' gh1 I1) as (gh2 & G2 & I2 & C2).
      * apply upd_same.
      * intros k Hk. rewrite upd_other; auto.
      * auto.
      * exists gh2. split; [eapply gmono_trans; eauto; eapply gext_gmono; eauto|]. split; auto.
Qed.

Definition gh0 : ghost := mkGh (fun _ _ => None) (fun _ => None) (fun _ => []) (fun _ _ => 0).

Lemma InvL_init : InvL (g_node ginit) (g_net ginit) gh0.
Proof.
  split; [|split].
  - intros k. constructor; simpl; auto; try discriminate. intros i e. destruct i; discriminate.
  - constructor; simpl; auto; try discriminate; try congruence.
    + intros T; split; congruence.
    + intros T i e. destruct i; discriminate.
  - simpl; tauto.
Qed.
Lemma InvC_init : InvC (g_node ginit) (g_net ginit) gh0.
Proof.
  split; [|split].
  - intros k. constructor; simpl; auto; try discriminate; try lia.
    + left; auto.
    + left; auto.
  - intros T T' i _ H. simpl in H. congruence.
  - simpl; tauto.
Qed.
End inv.
