(** Every small step under the guards preserves InvC. *)
From Coq Require Import List Arith Bool Lia.
From Verif Require Import Base Raft_Model Raft_Spec Raft_Abs Raft_InvL Raft_InvL2 Raft_InvC.
Import ListNotations.

(** The q-th biggest of a list: at least q elements are that big. *)
Lemma insertDesc_count : forall h x l, length (filter h (insertDesc x l)) = length (filter h (x :: l)).
Proof.
  intros h x l. induction l as [|y l IH]; auto. cbn [insertDesc]. destruct (y <=? x); auto.
  cbn [filter] in *. destruct (h y), (h x); cbn [length] in *; lia.
Qed.
Lemma sortDesc_count : forall h l, length (filter h (sortDesc l)) = length (filter h l).
Proof.
  intros h l. induction l as [|x l IH]; auto. unfold sortDesc in *. simpl fold_right.
  rewrite insertDesc_count. cbn [filter]. destruct (h x); cbn [length]; lia.
Qed.
Inductive desc : list nat -> Prop :=
| desc_nil : desc []
| desc_cons : forall x l, Forall (fun y => y <= x) l -> desc l -> desc (x :: l).
Lemma insertDesc_Forall : forall (P : nat -> Prop) x l, P x -> Forall P l -> Forall P (insertDesc x l).
Proof.
  intros P x l Hx H. induction H; simpl; auto. destruct (x0 <=? x); constructor; auto.
Qed.
Lemma insertDesc_desc : forall x l, desc l -> desc (insertDesc x l).
Proof.
  intros x l H. induction H as [|y l Hy H IH]; simpl; [constructor; [constructor|constructor]|].
  destruct (Nat.leb_spec y x).
  - constructor; [constructor; auto|constructor; auto].
    eapply Forall_impl; [|exact Hy]. simpl; intros; lia.
  - constructor; auto. apply insertDesc_Forall; auto. lia.
Qed.
Lemma sortDesc_desc : forall l, desc (sortDesc l).
Proof. induction l; simpl; [constructor|]. apply insertDesc_desc; auto. Qed.
Lemma desc_nth : forall l q c, desc l -> nth_error l q = Some c -> q < length (filter (fun x => c <=? x) l).
Proof.
  intros l q c H. revert q. induction H as [|x l Hx H IH]; intros [|q] E; simpl in *; try discriminate.
  - injection E as ->. rewrite Nat.leb_refl. simpl. lia.
  - assert (c <= x). { rewrite Forall_forall in Hx. apply Hx. eapply nth_error_In; eauto. }
    replace (c <=? x) with true by (symmetry; apply Nat.leb_le; auto). simpl. specialize (IH q E). lia.
Qed.
Lemma sortDesc_nth : forall l q c, nth_error (sortDesc l) q = Some c -> q < length (filter (fun x => c <=? x) l).
Proof. intros l q c H. rewrite <- sortDesc_count. apply desc_nth; auto. apply sortDesc_desc. Qed.

Section presC.
Variable cfg : list nat.
Notation InvL := (InvL cfg).
Notation InvC := (InvC cfg).
Notation nodeL := (nodeL cfg).
Notation ghostL := (ghostL cfg).
Notation nodeC := (nodeC cfg).
Notation ghostC := (ghostC cfg).
Notation dead := (dead cfg).
Notation chosen := (chosen cfg).
Notation cpre := (cpre cfg).

Ltac red_n := cbn [n_mem n_disk d_p d_log m_p m_role m_inc m_votes m_noop m_peers set_p set_mc set_commit
  set_term_vote set_applied p_term p_vote p_mc p_commit p_applied] in *.

Lemma nodeC_save : forall f net gh n m d, p_term (d_p d) <= p_term (m_p m) -> nodeC f net gh n (mkN m d) ->
  nodeC f net gh n (mkN m (mkD (m_p m) (d_log d))).
Proof.
  intros f net gh n m d HL H. destruct H. constructor; red_n; auto.
  intros T HT. specialize (nc_acc T HT). lia.
Qed.

Lemma nodeC_local : forall f net gh n p r r' i vs vs' np np' ps ps' d,
  r' = r \/ r' = Follower ->
  (forall v, In (v, true) vs' -> In (v, true) vs) ->
  (forall q k, In (q, k) ps' -> k = 0 \/ In (q, k) ps) ->
  nodeC f net gh n (mkN (mkM p r i vs np ps) d) -> nodeC f net gh n (mkN (mkM p r' i vs' np' ps') d).
Proof.
  intros f net gh n p r r' i vs vs' np np' ps ps' d Hr Hv Hp H. destruct H. constructor; red_n; auto.
  - intros Hc. assert (Hrc : r = Candidate) by (destruct Hr; congruence).
    destruct (nc_cand Hrc) as (A & B). split; auto.
    intros q j Hq. destruct (Hp q j Hq) as [|]; eauto.
  - intros Hc q j Hq. assert (Hrc : r = Leader) by (destruct Hr; congruence).
    destruct (Hp q j Hq) as [->|]; [lia|eauto].
  - intros Hc. assert (Hrc : r = Leader) by (destruct Hr; congruence). auto.
Qed.

Lemma nodeC_elect : forall f net gh n p r i vs np np' ps ps' d t v,
  p_term p <= t -> (forall q k, In (q, k) ps' -> k = 0) ->
  nodeC f net gh n (mkN (mkM p r i vs np ps) d) ->
  nodeC f net gh n (mkN (mkM (set_term_vote t v p) Candidate i [] np' ps') d).
Proof.
  intros f net gh n p r i vs np np' ps ps' d t v Ht Hp H. destruct H. constructor; red_n; auto; try discriminate.
  - eapply cpre_T; eauto.
  - intros _. split; [eauto|]. simpl; tauto.
Qed.

Lemma nodeC_term : forall f net gh n p r i vs np np' ps d t v,
  p_term p <= t ->
  nodeC f net gh n (mkN (mkM p r i vs np ps) d) ->
  nodeC f net gh n (mkN (mkM (set_term_vote t v p) Follower i vs np' ps) d).
Proof.
  intros f net gh n p r i vs np np' ps d t v Ht H. destruct H. constructor; red_n; auto; try discriminate.
  eapply cpre_T; eauto.
Qed.

Lemma nodeC_p : forall f net gh n m d p', p_term p' = p_term (m_p m) ->
  p_commit (m_p m) <= p_commit p' -> p_applied p' = p_applied (m_p m) -> cpre gh (d_log d) (p_commit p') (p_term p') ->
  nodeC f net gh n (mkN m d) -> nodeC f net gh n (mkN (set_p p' m) d).
Proof.
  intros f net gh n m d p' H1 H2 H3 H4 H. destruct H. constructor; red_n; rewrite ?H1, ?H3; auto; try congruence.
  destruct nc_am; split; auto; lia.
Qed.

Lemma nodeC_restart : forall f net gh n m d, nodeC f net gh n (mkN m d) -> nodeC f net gh n (restart (m_inc m) d).
Proof.
  intros f net gh n m d H. destruct H. unfold restart. constructor; red_n; auto; try discriminate.
Qed.

(** Two commit prefixes: what a node has applied stays a prefix of what it will. *)
Lemma nodeC_apply : forall f net gh n m d,
  nodeC f net gh n (mkN m d) ->
  let p := m_p m in let la := length (p_applied p) in
  nodeC f net gh n (mkN (set_p (set_applied (p_applied p ++ firstn (p_commit p - la) (skipn la (d_log d))) p) m) d).
Proof.
  intros f net gh n m d H p la. pose proof (cpre_len _ _ _ _ _ (nc_cm _ _ _ _ _ _ H)) as HL.
  destruct H. red_n. fold p in HL, nc_am. fold la in nc_am. destruct nc_am as (A & B).
  assert (E : p_applied p ++ firstn (p_commit p - la) (skipn la (d_log d)) = firstn (p_commit p) (d_log d)).
  { rewrite B. rewrite <- firstn_plus. f_equal. lia. }
  constructor; red_n; auto.
  fold p. fold la. rewrite E, firstn_length_le by auto. split; auto.
Qed.

(** Becoming leader. *)
Lemma InvC_lead : forall f f' net gh n np',
  InvL f net gh -> InvC f net gh -> (forall k, k <> n -> f' k = f k) ->
  nrole (f n) = Candidate -> length cfg < 2 * (1 + countVotes true (m_votes (n_mem (f n)))) ->
  let p' := set_mc (mt (f n)) (m_p (n_mem (f n))) in
  let l' := nlog (f n) ++ [mkE (mt (f n)) noopCmd] in
  let m' := mkM p' Leader (ninc (f n)) (m_votes (n_mem (f n))) np' (m_peers (n_mem (f n))) in
  f' n = mkN m' (mkD p' l') ->
  InvC f' (net ++ map (newAE n m' l' (length (nlog (f n))) 1) (others cfg n))
       (ghLead gh n (ninc (f n)) (mt (f n)) l').
Proof.
  intros f f' net gh n np' I IC Hf Hr Hq p' l' m' Hn. pose proof I as (HN & HG & HM). pose proof IC as (CN & CG & CM).
  destruct (lead_unique cfg f net gh n _ I Hr eq_refl Hq) as ((Q & HQ & HQn & HQv) & Hld).
  destruct (nl_cand _ _ _ _ (HN n) Hr) as (C1 & C2 & C3 & C4 & C5).
  destruct (nc_cand _ _ _ _ _ _ (CN n) Hr) as (D1 & D2).
  assert (Hg : forall p, gv gh n (mt (f n)) = Some p -> p = (n, ninc (f n))).
  { intros p Hp. destruct (gv_fresh cfg gh n (f n) p (HN n) Hp) as (X & _). congruence. }
  set (t := mt (f n)) in *.
  assert (Ht : tl gh t = []).
  { destruct (tl gh t) eqn:E; auto. exfalso.
    apply (proj1 (gl_tl _ _ HG t)); [rewrite E; discriminate|auto]. }
  assert (Hacc : forall v, acc gh v t = 0).
  { intros v. pose proof (gl_acc _ _ HG v t) as Z. rewrite Ht in Z. simpl in Z. lia. }
  assert (E : gext n gh (ghLead gh n (ninc (f n)) t l')) by (apply gext_lead; auto; rewrite Hacc; auto).
  assert (Hdle : dt (f n) <= t) by apply (nl_le _ _ _ _ (HN n)).
  assert (FE : fext n f f' gh (ghLead gh n (ninc (f n)) t l')).
  { constructor; auto.
    - intros v. destruct (Nat.eq_dec v n) as [->|]; [rewrite Hn; subst m' p'; red_n; auto|rewrite Hf; auto].
    - intros v T Hv. cbn [acc ghLead]. apply upd2_other; auto.
    - intros T HT. cbn [acc ghLead]. apply upd2_other; right; lia. }
  (* leader completeness *)
  assert (LC : forall T i, T < t -> 1 <= i <= length (tl gh T) -> termAt (tl gh T) i = T ->
             pre i (nlog (f n)) (tl gh T) \/ dead f' (ghLead gh n (ninc (f n)) t l') T i).
  { intros T i HT Hi Hti.
    destruct (Exists_dec (fun v => i <= acc gh v T) Q (fun v => le_dec i (acc gh v T))) as [X|X].
    - apply Exists_exists in X. destruct X as (v & Hv & Ha).
      destruct (Nat.eq_dec v n) as [->|Hvn].
      + destruct (nc_log _ _ _ _ _ _ (CN n) T i ltac:(lia) Hti) as [Y|Y]; auto.
        right. eapply dead_ext; eauto.
      + destruct (D2 v (HQv v Hv Hvn)) as (from & to & ft & mc & <- & Hvote).
        pose proof (CM _ Hvote) as VC. cbn [msgC] in VC. destruct VC as (to' & li & lt & mc' & HRV & VC).
        pose proof (HM _ HRV) as RL. cbn [msgL fst snd] in RL. destruct RL as (_ & _ & _ & RL).
        destruct (RL eq_refl) as (_ & RL2). destruct (RL2 eq_refl Hr) as (-> & ->).
        destruct (VC T i HT ltac:(lia) Hti) as [Y|Y].
        * destruct (uptodate_holds cfg f gh n (f n) T i (HN n) HG CG Hi Hti Y) as [Z|Z]; auto.
          right; eapply dead_ext; eauto.
        * right; eapply dead_ext; eauto.
    - right. exists Q; split; auto. intros v Hv.
      assert (Ha : acc gh v T < i).
      { destruct (le_lt_dec i (acc gh v T)); auto. exfalso. apply X. apply Exists_exists. eauto. }
      destruct (Nat.eq_dec v n) as [->|Hvn].
      + rewrite Hn. subst m' p'; red_n. fold t. split; auto. cbn [acc ghLead]. rewrite upd2_other; auto. right; lia.
      + rewrite Hf by auto. cbn [acc ghLead]. rewrite upd2_other by auto. split; auto.
        destruct (C5 v (HQv v Hv Hvn)) as (_ & _ & Hgv).
        destruct (nl_gv _ _ _ _ (HN v) _ _ Hgv) as [?|(? & _)]; unfold t; lia. }
  assert (Hcm : cpre (ghLead gh n (ninc (f n)) t l') l' (p_commit (m_p (n_mem (f n)))) t).
  { pose proof (nc_cm _ _ _ _ _ _ (CN n)) as Z. pose proof (cpre_len _ _ _ _ _ Z).
    eapply cpre_ext; eauto. eapply cpre_log; eauto. subst l'. apply pre_app_l, pre_refl; auto. }
  pose proof (cpre_len _ _ _ _ _ Hcm) as Hcl.
  eapply InvC_frame; eauto.
  - destruct (CN n). constructor; subst m' p'; red_n; fold t; auto; try discriminate.
    + intros T. cbn [acc ghLead]. destruct (Nat.eq_dec T t) as [->|]; [auto|].
      rewrite upd2_other by auto. intros HT. specialize (nc_acc T HT). lia.
    + intros T i. cbn [acc ghLead tl]. destruct (Nat.eq_dec T t) as [->|].
      * rewrite upd2_same, upd_same. intros Hi _. left. apply pre_refl; lia.
      * rewrite upd2_other, upd_other by auto. intros Hi Hti.
        destruct (nc_log T i Hi Hti) as [Y|Y]; [left; subst l'; apply pre_app_l; auto|right; eapply dead_ext; eauto].
    + assert (HA : forall a, length a <= length (nlog (f n)) -> a = firstn (length a) (nlog (f n)) -> a = firstn (length a) l').
      { intros a La Ea. rewrite Ea at 1. subst l'. rewrite firstn_app. replace (length a - length (nlog (f n))) with 0 by lia.
        simpl. rewrite app_nil_r; auto. }
      destruct nc_am as (A & B). pose proof (cpre_len _ _ _ _ _ nc_cm). split; auto. apply HA; auto. lia.
    + assert (HA : forall a, length a <= length (nlog (f n)) -> a = firstn (length a) (nlog (f n)) -> a = firstn (length a) l').
      { intros a La Ea. rewrite Ea at 1. subst l'. rewrite firstn_app. replace (length a - length (nlog (f n))) with 0 by lia.
        simpl. rewrite app_nil_r; auto. }
      destruct nc_am as (A & B). pose proof (cpre_len _ _ _ _ _ nc_cm). split; auto. apply HA; auto. lia.
    + intros _ q j Hq1. rewrite (D1 q j Hq1). lia.
    + intros _. split; auto. cbn [acc ghLead]. rewrite upd2_same. auto.
  - intros T T' i HT. cbn [tl ld ghLead]. destruct (Nat.eq_dec T t) as [->|HTt].
    + rewrite upd_other, upd_same by lia. rewrite upd_other by lia. intros Hl Hi Hti. right.
      destruct (later_leader_majority cfg f net gh T' I Hl) as (Q' & HQ' & Hd').
      exists Q'; split; auto. intros v Hv. specialize (Hd' v Hv).
      assert (v <> n) by (intros ->; lia).
      rewrite Hf by auto. split; [lia|]. cbn [acc ghLead]. rewrite upd2_other, Hacc by auto. lia.
    + rewrite (upd_other _ (tl gh) t l' T) by auto.
      destruct (Nat.eq_dec T' t) as [->|HTt'].
      * rewrite !upd_same. intros _ Hi Hti. destruct (LC T i HT Hi Hti) as [Y|Y]; auto.
        left. subst l'. apply pre_app_l; auto.
      * rewrite !upd_other by auto. intros Hl Hi Hti.
        destruct (CG T T' i HT Hl Hi Hti) as [Y|Y]; auto. right; eapply dead_ext; eauto.
  - intros x Hx. apply in_map_iff in Hx. destruct Hx as (to & <- & Hto).
    unfold newAE, msgC. subst m' p'. red_n. fold t. rewrite terms_length.
    assert (Hll : length l' = S (length (nlog (f n)))) by (subst l'; rewrite app_length; simpl; lia).
    split; [|split]; auto.
    + intros _. rewrite firstn_length, skipn_length. lia.
    + cbn [tl ghLead] in *. rewrite upd_same. auto.
Qed.

Lemma InvC_append : forall f f' net gh n c,
  InvL f net gh -> InvC f net gh -> (forall k, k <> n -> f' k = f k) ->
  nrole (f n) = Leader ->
  let l' := nlog (f n) ++ [mkE (mt (f n)) c] in
  f' n = mkN (n_mem (f n)) (mkD (d_p (n_disk (f n))) l') ->
  InvC f' net (ghTl gh n (mt (f n)) l').
Proof.
  intros f f' net gh n c I IC Hf Hr l' Hn. pose proof I as (HN & HG & HM). pose proof IC as (CN & CG & CM).
  destruct (nl_lead _ _ _ _ (HN n) Hr) as (L1 & L2 & L3 & L4). set (t := mt (f n)) in *.
  assert (E : gext n gh (ghTl gh n t l')).
  { eapply gext_tl; eauto; [subst l'; rewrite L3; reflexivity|apply (gl_acc _ _ HG)]. }
  assert (FE : fext n f f' gh (ghTl gh n t l')).
  { constructor; auto.
    - intros v. destruct (Nat.eq_dec v n) as [->|]; [rewrite Hn; red_n; auto|rewrite Hf; auto].
    - intros v T Hv. cbn [acc ghTl]. apply upd2_other; auto.
    - intros T HT. cbn [acc ghTl]. apply upd2_other; right; lia. }
  assert (HA : forall a, length a <= length (nlog (f n)) -> a = firstn (length a) (nlog (f n)) -> a = firstn (length a) l').
  { intros a La Ea. rewrite Ea at 1. subst l'. rewrite firstn_app. replace (length a - length (nlog (f n))) with 0 by lia.
    simpl. rewrite app_nil_r; auto. }
  assert (Hc : forall x T, cpre gh (nlog (f n)) x T -> cpre (ghTl gh n t l') l' x T).
  { intros x T Z. pose proof (cpre_len _ _ _ _ _ Z). eapply cpre_ext; eauto. eapply cpre_log; eauto.
    subst l'. apply pre_app_l, pre_refl; auto. }
  rewrite <- (app_nil_r net). eapply InvC_frame; eauto.
  - destruct (CN n). constructor; red_n; fold t; auto.
    + intros T. cbn [acc ghTl]. destruct (Nat.eq_dec T t) as [->|]; [lia|]. rewrite upd2_other by auto. auto.
    + intros T i. cbn [acc ghTl tl]. destruct (Nat.eq_dec T t) as [->|].
      * rewrite upd2_same, upd_same. intros Hi _. left. apply pre_refl; lia.
      * rewrite upd2_other, upd_other by auto. intros Hi Hti.
        destruct (nc_log T i Hi Hti) as [Y|Y]; [left; subst l'; apply pre_app_l; auto|right; eapply dead_ext; eauto].
    + destruct nc_am as (A & B). pose proof (cpre_len _ _ _ _ _ nc_cm). split; auto. apply HA; auto. lia.
    + destruct nc_ad as (A & B). pose proof (cpre_len _ _ _ _ _ nc_cd). split; auto. apply HA; auto. lia.
    + intros Z; congruence.
    + intros _ q j Hj. pose proof (nc_lead Hr q j Hj). pose proof (ge_acc _ _ _ E (fst q) t). unfold t in *; lia.
    + intros _. split; [apply nc_self; auto|]. cbn [acc ghTl]. rewrite upd2_same. auto.
  - intros T T' i HT. cbn [tl ld ghTl]. intros Hl. destruct (Nat.eq_dec T t) as [->|HTt].
    + rewrite (upd_other _ (tl gh) t l' T') by lia. rewrite upd_same. intros Hi Hti.
      destruct (le_lt_dec i (length (nlog (f n)))) as [Hle|Hgt].
      * assert (P : pre i l' (tl gh t)) by (rewrite L3; subst l'; apply pre_app_l, pre_refl; auto).
        destruct (CG t T' i HT Hl) as [Y|Y].
        -- rewrite L3; lia.
        -- rewrite <- (termAt_pre i i _ _ P); auto.
        -- left. eapply pre_trans; [exact Y|apply pre_sym; auto].
        -- right; eapply dead_ext; eauto.
      * right. destruct (later_leader_majority cfg f net gh T' I Hl) as (Q' & HQ' & Hd').
        exists Q'; split; auto. intros v Hv. specialize (Hd' v Hv).
        assert (v <> n) by (intros ->; lia).
        rewrite Hf by auto. split; [lia|]. cbn [acc ghTl]. rewrite upd2_other by auto.
        pose proof (gl_acc _ _ HG v t) as Z. rewrite L3 in Z. lia.
    + rewrite (upd_other _ (tl gh) t l' T) by auto. intros Hi Hti.
      destruct (CG T T' i HT Hl Hi Hti) as [Y|Y]; [left|right; eapply dead_ext; eauto].
      destruct (Nat.eq_dec T' t) as [->|]; [rewrite upd_same; subst l'; rewrite <- L3; apply pre_app_l; auto|].
      rewrite upd_other; auto.
  - simpl; tauto.
Qed.

(** The leader's tally of match indexes is a majority's. *)
Lemma majority_matches : forall f net gh n m d ci nf,
  InvL f net gh -> nodeC f net gh n (mkN m d) -> m_role m = Leader ->
  nth_error (sortDesc (matchIndexes cfg m (d_log d))) (quorum cfg nf - 1) = Some ci ->
  NoDup (n :: map (fun x => fst (fst x)) (m_peers m)) -> ci <= length (d_log d) ->
  exists Q, majority cfg Q /\ forall v, In v Q -> ci <= acc gh v (p_term (m_p m)).
Proof.
  intros f net gh n m d ci nf I H Hr Hs Hnd Hci.
  destruct (nc_self _ _ _ _ _ _ H Hr) as (Hn & Hself). pose proof (nc_lead _ _ _ _ _ _ H Hr) as HP. red_n.
  apply sortDesc_nth in Hs. unfold matchIndexes in Hs. cbn [filter] in Hs.
  replace (ci <=? length (d_log d)) with true in Hs by (symmetry; apply Nat.leb_le; auto). cbn [length] in Hs.
  set (h := fun x : pid * nat => inCfg cfg (fst (fst x)) && (ci <=? snd x)).
  set (R := map (fun x : pid * nat => fst (fst x)) (filter h (m_peers m))).
  assert (HR : length R = length (filter (fun x => ci <=? x)
     (map snd (filter (fun x : pid * nat => inCfg cfg (fst (fst x))) (m_peers m))))).
  { unfold R, h. rewrite map_length. clear. induction (m_peers m) as [|x l IH]; auto. cbn [filter].
    destruct (inCfg cfg (fst (fst x))); cbn [andb map filter]; auto.
    destruct (ci <=? snd x); cbn [length]; auto. }
  assert (HRin : forall v, In v R -> exists q j, fst q = v /\ In (q, j) (m_peers m) /\ In v cfg /\ ci <= j).
  { intros v Hv. unfold R in Hv. apply in_map_iff in Hv. destruct Hv as ((q & j) & Hq & Hin).
    apply filter_In in Hin. destruct Hin as (Hin & Hh). unfold h in Hh. apply andb_prop in Hh. destruct Hh as (A & B).
    simpl in *. exists q, j. split; auto. split; auto. split; [|apply Nat.leb_le; auto].
    unfold inCfg in A. apply existsb_exists in A. destruct A as (y & Hy & Ey). apply Nat.eqb_eq in Ey. congruence. }
  inversion Hnd as [|a b N1 N2]; subst.
  exists (n :: R). split; [split; [|split]|].
  - constructor.
    + intros Hin. destruct (HRin n Hin) as (q & j & <- & Hq & _). apply N1. apply in_map_iff. exists (q, j); auto.
    + unfold R. clear -N2. induction (m_peers m) as [|x l IH]; simpl in *; [constructor|].
      inversion N2; subst. destruct (h x); simpl; auto. constructor; auto.
      intros Hin. apply H1. apply in_map_iff in Hin. destruct Hin as (y & Hy & Hin).
      apply filter_In in Hin. apply in_map_iff. exists y; tauto.
  - intros v [<-|Hv]; auto. destruct (HRin v Hv) as (q & j & _ & _ & ? & _); auto.
  - cbn [length]. rewrite HR. unfold quorum in Hs.
    assert (0 < length cfg) by (destruct cfg; simpl in *; [tauto|lia]).
    pose proof (Nat.div_mod_eq (length cfg) 2). pose proof (Nat.mod_upper_bound (length cfg) 2 ltac:(lia)).
    unfold pid in *. destruct nf; lia.
  - intros v [<-|Hv]; [lia|]. destruct (HRin v Hv) as (q & j & <- & Hq & _ & Hj).
    specialize (HP q j Hq). lia.
Qed.

(** Everything a node shares with the term-T leader log is in the common prefix
    with an AppendEntries of term T. *)
Lemma ae_max : forall f gh l from to T lt prev pt es lci mc i,
  msgL f gh (AppendEntries from to T lt prev pt es lci mc) ->
  lcp lt (terms l) < length lt -> pre i l (tl gh T) -> i <= lcp lt (terms l).
Proof.
  intros f gh l from to T lt prev pt es lci mc i HM Hc HP. simpl in HM. destruct HM as (_ & _ & _ & D & F & _).
  assert (A : pre (Nat.min i (length lt)) lt (terms l)).
  { assert (B : pre (Nat.min i (length lt)) (terms (firstn (length lt) (tl gh T))) (terms l)).
    { rewrite terms_firstn. apply pre_firstn_l; [|lia]. apply pre_sym.
      eapply pre_le; [apply pre_map; exact HP|lia]. }
    rewrite <- F in B. auto. }
  apply lcp_max in A. lia.
Qed.

Lemma nodeC_write : forall f fx gh n m d net from to lt prev pt es lci mc k,
  InvL f net gh -> InvC f net gh -> f n = mkN m d -> fext n f fx gh gh ->
  let T := p_term (m_p m) in
  In (AppendEntries from to T lt prev pt es lci mc) net ->
  m_role m = Follower -> p_term (d_p d) = T ->
  let c := lcp lt (terms (d_log d)) in
  c < length lt -> prev <= c ->
  let l' := firstn c (d_log d) ++ firstn k (skipn (c - prev) es) in
  nodeC fx net gh n (mkN m (mkD (d_p d) l')).
Proof.
  intros f fx gh n m d net from to lt prev pt es lci mc k I IC En FE T Hin Hr Hd c Hc Hp l'.
  pose proof I as (HN & HG & HM). pose proof IC as (CN & CG & CM).
  pose proof (HN n) as HNn. rewrite En in HNn. pose proof (CN n) as CNn. rewrite En in CNn.
  pose proof (HM _ Hin) as X.
  pose proof (ae_common _ f gh n _ _ _ _ _ _ _ _ _ _ HNn HG X) as HP. red_n. fold c in HP.
  assert (Hmax : forall i, pre i (d_log d) (tl gh T) -> i <= c) by (intros i; eapply ae_max; eauto).
  assert (Hkeep : forall i b, pre i (d_log d) b -> i <= c -> pre i l' b).
  { intros i b Hb Hi. subst l'. apply pre_app_l. apply pre_firstn_l; auto. }
  assert (HldT : ld gh T <> None) by (simpl in X; destruct X as (X & _); congruence).
  assert (Hcp : forall x T', cpre gh (d_log d) x T' -> T' <= T -> x <= c).
  { intros x T' [->|(T0 & i0 & A1 & A2 & A3 & A4)] HT'; [lia|]. apply Hmax.
    eapply pre_trans; [exact A4|]. apply pre_sym. eapply pre_le; [|exact A2].
    eapply chosen_later; eauto. lia. }
  assert (Hcp2 : forall x T', cpre gh (d_log d) x T' -> T' <= T -> cpre gh l' x T').
  { intros x T' Z HT'. pose proof (cpre_len _ _ _ _ _ Z). eapply cpre_log; eauto. apply Hkeep; [apply pre_refl; auto|eauto]. }
  assert (Hap : forall a, length a <= c -> a = firstn (length a) (d_log d) -> a = firstn (length a) l').
  { intros a La Ea. rewrite Ea at 1. destruct HP as (P1 & _).
    destruct (Hkeep (length a) (d_log d)) as (_ & _ & Z); auto. apply pre_refl; lia. }
  destruct CNn. constructor; red_n; auto; try (intros Z; congruence).
  - intros T' i Hi Hti. assert (HT' : T' <= T) by (specialize (nc_acc T' ltac:(lia)); lia).
    destruct (nc_log T' i Hi Hti) as [Y|Y]; [|right; eapply dead_ext; eauto].
    destruct (Nat.eq_dec T' T) as [->|Hne]; [left; apply Hkeep; auto|].
    pose proof Y as (_ & Y2 & _).
    destruct (CG T' T i ltac:(lia) HldT ltac:(lia) Hti) as [Z|Z]; [|right; eapply dead_ext; eauto].
    left. apply Hkeep; auto. apply Hmax. eapply pre_trans; [exact Y|apply pre_sym; auto].
  - apply Hcp2; auto. lia.
  - destruct nc_am as (A & B). split; auto. apply Hap; auto. specialize (Hcp _ _ nc_cm (le_n _)). lia.
  - destruct nc_ad as (A & B). split; auto. apply Hap; auto. specialize (Hcp _ _ nc_cd ltac:(lia)). lia.
Qed.

(** What an accepting follower confirms. *)
Lemma ack_pre : forall f gh n m d from to T lt prev pt es lci mc,
  ghostL gh -> nodeL gh n (mkN m d) -> msgL f gh (AppendEntries from to T lt prev pt es lci mc) ->
  p_term (d_p d) = T ->
  let c := lcp lt (terms (d_log d)) in
  c = length lt \/ c = length (d_log d) -> pre (length (d_log d)) (d_log d) (tl gh T).
Proof.
  intros f gh n m d from to T lt prev pt es lci mc HG HN X Hd c Hc.
  pose proof (ae_common _ f gh n _ _ _ _ _ _ _ _ _ _ HN HG X) as HP. red_n. fold c in HP.
  destruct Hc as [Hc|Hc]; [|rewrite <- Hc at 1; auto].
  simpl in X. destruct X as (X1 & X2 & X3 & X4 & X5 & X6 & _).
  assert (Hc1 : 1 <= c) by lia. pose proof HP as (P1 & _).
  assert (Hne : d_log d <> []) by (intros Z; rewrite Z in P1; simpl in P1; lia).
  destruct (node_last cfg gh n _ HN Hne) as (A & B). red_n.
  assert (T <= lastTerm (d_log d)).
  { rewrite <- X6, <- Hc at 1. rewrite <- (termAt_pre c c _ _ HP) by lia. rewrite lastTerm_termAt.
    apply (node_mono_terms cfg gh n _ c (length (d_log d)) HN HG); red_n; lia. }
  replace T with (lastTerm (d_log d)) by lia. auto.
Qed.

Lemma gext_acc : forall gh n t x, gext n gh (ghAcc gh n t x).
Proof.
  intros. constructor; simpl; auto.
  - intros; exists []; rewrite app_nil_r; auto.
  - intros k T. destruct (Nat.eq_dec k n) as [->|]; [destruct (Nat.eq_dec T t) as [->|]|].
    + rewrite upd2_same. lia.
    + rewrite upd2_other; auto.
    + rewrite upd2_other; auto.
Qed.

(** Confirming [x] entries of the term-t leader log, as an ack does. *)
Lemma InvC_acc : forall f net gh n t x,
  InvL f net gh -> InvC f net gh -> dt (f n) = t -> pre x (nlog (f n)) (tl gh t) ->
  InvC f net (ghAcc gh n t x).
Proof.
  intros f net gh n t x I IC Hd Hx. pose proof I as (HN & HG & HM). pose proof IC as (CN & CG & CM).
  assert (FE : fext n f f gh (ghAcc gh n t x)).
  { constructor; auto using gext_acc.
    - intros v T Hv. cbn [acc ghAcc]. apply upd2_other; auto.
    - intros T HT. cbn [acc ghAcc]. apply upd2_other; right; lia. }
  rewrite <- (app_nil_r net). eapply InvC_frame; eauto.
  - rewrite app_nil_r. destruct (CN n). constructor; auto; try (eapply cpre_ext; eauto using gext_acc).
    + intros T. cbn [acc ghAcc]. destruct (Nat.eq_dec T t) as [->|]; [lia|]. rewrite upd2_other by auto. auto.
    + intros T i. cbn [acc ghAcc tl]. intros Hi Hti.
      assert (Hor : i <= acc gh n T \/ (T = t /\ i <= x)).
      { destruct (Nat.eq_dec T t) as [->|]; [rewrite upd2_same in Hi; lia|rewrite upd2_other in Hi by auto; lia]. }
      destruct Hor as [Ho|(-> & Ho)].
      * destruct (nc_log T i ltac:(lia) Hti) as [Y|Y]; auto. right; eapply dead_ext; eauto.
      * left. eapply pre_le; eauto.
    + intros Hr q j Hj. specialize (nc_lead Hr q j Hj). pose proof (ge_acc _ _ _ (gext_acc gh n t x) (fst q) (mt (f n))). lia.
    + intros Hr. destruct (nc_self Hr). split; auto. pose proof (ge_acc _ _ _ (gext_acc gh n t x) n (mt (f n))). lia.
  - eapply ghostC_same; eauto.
  - simpl; tauto.
Qed.
End presC.
