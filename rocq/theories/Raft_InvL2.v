(** Every small step preserves InvL. *)
From Coq Require Import List Arith Bool Lia.
From Verif Require Import Base Raft_Model Raft_Spec Raft_Abs Raft_InvL.
Import ListNotations.

Definition rvok (nd nd' : node) : Prop :=
  ninc nd <= ninc nd' /\
  (ninc nd' = ninc nd -> mt nd <= mt nd' /\
     (mt nd' = mt nd -> nrole nd' = Candidate -> nrole nd = Candidate /\ nlog nd' = nlog nd)).
Lemma rvok_same : forall nd nd', ninc nd' = ninc nd -> mt nd' = mt nd ->
  (nrole nd' = Candidate -> nrole nd = Candidate) -> nlog nd' = nlog nd -> rvok nd nd'.
Proof. intros. split; [lia|]. intros _. split; [lia|]. intros; auto. Qed.

Section pres.
Variable cfg : list nat.
Notation InvL := (InvL cfg).
Notation nodeL := (nodeL cfg).
Notation ghostL := (ghostL cfg).

Lemma InvL_frame : forall f f' net new gh gh' n nd',
  InvL f net gh -> (forall k, k <> n -> f' k = f k) -> f' n = nd' ->
  gext n gh gh' -> ghostL gh' -> nodeL gh' n nd' -> rvok (f n) nd' ->
  (forall x, In x new -> msgL f' gh' x) ->
  InvL f' (net ++ new) gh'.
Proof.
  intros f f' net new gh gh' n nd' (HN & HG & HM) Hf Hn E G N R X. split; [|split]; auto.
  - intros k. destruct (Nat.eq_dec k n) as [->|Hk].
    + rewrite Hn; auto.
    + rewrite Hf by auto. eapply nodeL_ext; eauto.
  - intros x Hx. apply in_app_iff in Hx. destruct Hx as [Hx|Hx]; auto.
    eapply msgL_ext; eauto. intros c to t li lt mc -> Hc Hm. simpl in *. subst n.
    rewrite Hn. destruct R as (R1 & R2). destruct Hm as (A & B & C & D).
    split; auto. split; auto. split; [lia|]. intros Hs. destruct R2 as (R2 & R3); [lia|].
    destruct D as (D1 & D2); [lia|]. split; [lia|]. intros Ht Hr.
    assert (Hmt : mt nd' = mt (f (fst c))) by lia. destruct (R3 Hmt Hr) as (Hr1 & Hl).
    destruct D2; [lia|auto|]. rewrite Hl. auto.
Qed.

Lemma InvL_frame0 : forall f f' net gh gh' n nd',
  InvL f net gh -> (forall k, k <> n -> f' k = f k) -> f' n = nd' ->
  gext n gh gh' -> ghostL gh' -> nodeL gh' n nd' -> rvok (f n) nd' ->
  InvL f' net gh'.
Proof.
  intros. rewrite <- (app_nil_r net). eapply InvL_frame; eauto. simpl; tauto.
Qed.

(** Sending a message changes no node. *)
Lemma InvL_send : forall f f' net gh n x,
  InvL f net gh -> (forall k, k <> n -> f' k = f k) -> f' n = f n ->
  msgL f' gh x -> InvL f' (net ++ [x]) gh.
Proof.
  intros f f' net gh n x I Hf Hn Hx. eapply InvL_frame; eauto.
  - apply gext_refl.
  - apply I.
  - rewrite <- Hn. destruct I as (HN & _). rewrite Hn. auto.
  - apply rvok_same; auto.
  - intros y [<-|[]]; auto.
Qed.

Lemma gv_none_lt : forall gh k nd T, nodeL gh k nd -> dt nd < T -> gv gh k T = None.
Proof.
  intros gh k nd T H L. destruct (gv gh k T) as [p|] eqn:E; auto.
  destruct (nl_gv _ _ _ _ H _ _ E) as [?|(? & ?)]; lia.
Qed.

Lemma nodeL_save : forall gh n nd, nodeL gh n nd ->
  nodeL (ghVote gh n (mt nd) (mv nd)) n (mkN (n_mem nd) (mkD (m_p (n_mem nd)) (nlog nd))).
Proof.
  intros gh n nd H. pose proof (gv_fresh cfg gh n nd) as Fr. pose proof (nl_le _ _ _ _ H) as Hle.
  assert (Hgv : forall T p, gv (ghVote gh n (mt nd) (mv nd)) n T = Some p ->
                 gv gh n T = Some p \/ (T = mt nd /\ mv nd = Some p)).
  { intros T p. destruct (mv nd) as [v|] eqn:Ev; simpl; auto.
    destruct (Nat.eq_dec T (mt nd)) as [->|].
    - rewrite upd2_same. intros; right; split; congruence.
    - rewrite upd2_other; auto. }
  assert (E : gext n gh (ghVote gh n (mt nd) (mv nd))).
  { apply gext_vote. intros p Hp. apply Fr; auto. }
  constructor; cbn [n_mem n_disk d_p d_log]; auto.
  - intros T p Hp. apply Hgv in Hp. destruct Hp as [Hp|(-> & Hp)]; auto.
    destruct (nl_gv _ _ _ _ H _ _ Hp) as [L|(-> & L)]; [left; lia|].
    destruct (Nat.eq_dec (dt nd) (mt nd)) as [Heq|]; [|left; lia].
    right; split; auto. rewrite <- (nl_vote _ _ _ _ H); auto.
  - intros p Hp. rewrite Hp. simpl. apply upd2_same.
  - intros Hr. destruct (nl_cand _ _ _ _ H Hr) as (A & B & C & D & F).
    split; auto. split; auto. split; auto. split; auto.
    intros v Hv. destruct (F v Hv) as (F1 & F2 & F3). split; auto. split; auto.
    apply (ge_gv _ _ _ E); auto.
  - intros Hr. rewrite ld_ghVote, tl_ghVote. destruct (nl_lead _ _ _ _ H Hr) as (A & B & C & D). auto.
  - rewrite ld_ghVote. intros T i Hl. apply (nl_ld _ _ _ _ H); auto.
  - rewrite tl_ghVote. intros i e He. destruct (nl_log _ _ _ _ H i e He). split; auto. lia.
  - pose proof (nl_mc _ _ _ _ H). lia.
Qed.

Lemma InvL_save : forall f f' net gh n,
  InvL f net gh -> (forall k, k <> n -> f' k = f k) ->
  f' n = mkN (n_mem (f n)) (mkD (m_p (n_mem (f n))) (nlog (f n))) ->
  InvL f' net (ghVote gh n (mt (f n)) (mv (f n))).
Proof.
  intros f f' net gh n I Hf Hn. pose proof I as (HN & HG & HM).
  assert (Fr : forall p, gv gh n (mt (f n)) = Some p -> mv (f n) = Some p).
  { intros p Hp. eapply gv_fresh; eauto. }
  eapply InvL_frame0; eauto.
  - apply gext_vote; auto.
  - apply ghostL_vote; auto.
  - apply nodeL_save; auto.
  - apply rvok_same; auto.
Qed.

(** Steps that change neither history nor network. *)
Lemma InvL_mem : forall f f' net gh n nd',
  InvL f net gh -> (forall k, k <> n -> f' k = f k) -> f' n = nd' ->
  nodeL gh n nd' -> rvok (f n) nd' -> InvL f' net gh.
Proof.
  intros. eapply InvL_frame0; eauto; [apply gext_refl|apply H].
Qed.

Lemma nodeL_local : forall gh n p r r' i vs vs' np np' ps ps' d,
  r' = r \/ r' = Follower ->
  (forall v, In (v, true) vs' -> In (v, true) vs) ->
  (NoDup (map fst vs) -> NoDup (map fst vs')) ->
  nodeL gh n (mkN (mkM p r i vs np ps) d) -> nodeL gh n (mkN (mkM p r' i vs' np' ps') d).
Proof.
  intros gh n p r r' i vs vs' np np' ps ps' d Hr Hv Hd H. destruct H. cbn [n_mem n_disk m_p m_role m_inc m_votes] in *.
  constructor; cbn [n_mem n_disk m_p m_role m_inc m_votes]; auto.
  - intros ->. destruct Hr as [<-|]; [|discriminate].
    destruct nl_cand as (A & B & C & D & E); auto. repeat split; auto; apply E; auto.
  - intros ->. destruct Hr as [<-|]; [|discriminate]. auto.
  - intros T j Hl. destruct (nl_ld T j Hl) as [?|(A & [B|(B & C)])]; auto.
    right; split; auto. right; split; auto. destruct Hr as [->| ->]; auto. discriminate.
Qed.

Lemma nodeL_term : forall gh n p r i vs np np' ps d t,
  p_term p < t -> nodeL gh n (mkN (mkM p r i vs np ps) d) ->
  nodeL gh n (mkN (mkM (set_term_vote t None p) Follower i vs np' ps) d).
Proof.
  intros gh n p r i vs np np' ps d t Ht H. destruct H.
  cbn [n_mem n_disk m_p m_role m_inc m_votes set_term_vote p_term p_vote p_mc] in *.
  constructor; cbn [n_mem n_disk m_p m_role m_inc m_votes set_term_vote p_term p_vote p_mc]; auto; try discriminate.
  - lia.
  - lia.
  - intros T j Hl. destruct (nl_ld T j Hl) as [?|(A & B)]; auto.
    right; split; auto. left; lia.
Qed.

Lemma nodeL_elect : forall gh n p r i vs np np' ps ps' d t,
  r <> Leader -> In n cfg -> t = (if is_foll r then S (p_term p) else p_term p) ->
  nodeL gh n (mkN (mkM p r i vs np ps) d) ->
  nodeL gh n (mkN (mkM (set_term_vote t (Some (n, i)) p) Candidate i [] np' ps') d).
Proof.
  intros gh n p r i vs np np' ps ps' d t Hr Hin Ht H. destruct H.
  cbn [n_mem n_disk m_p m_role m_inc m_votes set_term_vote p_term p_vote p_mc] in *.
  constructor; cbn [n_mem n_disk m_p m_role m_inc m_votes set_term_vote p_term p_vote p_mc]; auto; try discriminate.
  - destruct (is_foll r); lia.
  - destruct r; simpl in Ht; try congruence; [lia|]. subst t. intros Hd. rewrite nl_vote by auto.
    apply nl_cand; auto.
  - intros _. split; auto. split; auto. split; [destruct r; simpl in Ht; try lia; [|congruence]; subst t; apply nl_cand; auto|].
    split; [constructor|]. simpl; tauto.
  - intros T j Hl. destruct (nl_ld T j Hl) as [?|(A & B)]; auto. right; split; auto.
    destruct r; simpl in Ht; [left; lia| |congruence].
    destruct B as [B|(B & C)]; [left; lia|congruence].
Qed.

Lemma nodeL_mc : forall gh n m d c,
  m_role m <> Leader -> c <= p_term (d_p d) -> nodeL gh n (mkN m d) ->
  nodeL gh n (mkN (set_p (set_mc c (m_p m)) m) d).
Proof.
  intros gh n m d c Hr Hc H. destruct H.
  constructor; cbn [n_mem n_disk m_p m_role m_inc m_votes set_p set_mc p_term p_vote p_mc] in *; auto.
  - intros; congruence.
  - split; auto. apply nl_mc.
Qed.

Lemma nodeL_p : forall gh n m d p', p_term p' = p_term (m_p m) -> p_vote p' = p_vote (m_p m) -> p_mc p' = p_mc (m_p m) ->
  nodeL gh n (mkN m d) -> nodeL gh n (mkN (set_p p' m) d).
Proof.
  intros gh n m d p' H1 H2 H3 H. destruct H.
  constructor; cbn [n_mem n_disk m_p m_role m_inc m_votes set_p] in *; rewrite ?H1, ?H2, ?H3; auto.
Qed.

Lemma nodeL_restart : forall gh n m d, nodeL gh n (mkN m d) -> nodeL gh n (restart (m_inc m) d).
Proof.
  intros gh n m d H. destruct H. unfold restart.
  constructor; cbn [n_mem n_disk m_p m_role m_inc m_votes] in *; auto; try discriminate.
  - intros T j Hl. left. destruct (nl_ld T j Hl) as [?|(A & B)]; lia.
  - split; apply nl_mc.
Qed.

(** Granting a vote and saving it. *)
Lemma InvL_vote : forall f f' net gh n c,
  InvL f net gh -> (forall k, k <> n -> f' k = f k) ->
  nrole (f n) = Follower -> mv (f n) = None \/ mv (f n) = Some c ->
  let p' := set_term_vote (mt (f n)) (Some c) (m_p (n_mem (f n))) in
  f' n = mkN (set_p p' (n_mem (f n))) (mkD p' (nlog (f n))) ->
  InvL f' net (ghVote gh n (mt (f n)) (Some c)).
Proof.
  intros f f' net gh n c I Hf Hr Hv p' Hn. pose proof I as (HN & HG & HM).
  assert (Fr : forall p, gv gh n (mt (f n)) = Some p -> Some c = Some p).
  { intros p Hp. destruct (gv_fresh cfg gh n (f n) p); auto. destruct Hv; congruence. }
  assert (E : gext n gh (ghVote gh n (mt (f n)) (Some c))) by (apply gext_vote; auto).
  eapply InvL_frame0; eauto.
  - apply ghostL_vote; auto.
  - specialize (HN n). pose proof (nl_le _ _ _ _ HN) as Hle. destruct HN.
    constructor; subst p'; cbn [n_mem n_disk d_p d_log m_p m_role m_inc m_votes set_p set_term_vote p_term p_vote p_mc] in *; auto.
    + intros T p. simpl. destruct (Nat.eq_dec T (mt (f n))) as [->|].
      * rewrite upd2_same. auto.
      * rewrite upd2_other by auto. intros Hp. destruct (nl_gv T p Hp) as [?|(? & ?)]; left; lia.
    + intros p Hp. simpl. rewrite upd2_same; auto.
    + intros; congruence.
    + intros; congruence.
    + intros i e He. destruct (nl_log i e He). split; auto. lia.
    + lia.
  - apply rvok_same; subst p'; auto.
Qed.

Lemma gext_tl : forall gh n i t l c,
  ld gh t = Some (n, i) -> l = tl gh t ++ c -> acc gh n t <= length (tl gh t) ->
  gext n gh (ghTl gh n t l).
Proof.
  intros gh n i t l c Hl El Ha. constructor; simpl; auto.
  - intros T. destruct (Nat.eq_dec T t) as [->|].
    + rewrite upd_same. eauto.
    + rewrite upd_other by auto. exists []; rewrite app_nil_r; auto.
  - intros T k j Hk Hld. apply upd_other. intros ->. congruence.
  - intros k T. destruct (Nat.eq_dec k n) as [->|]; [destruct (Nat.eq_dec T t) as [->|]|].
    + rewrite upd2_same. subst l. rewrite app_length. lia.
    + rewrite upd2_other; auto.
    + rewrite upd2_other; auto.
Qed.

(** A history with one longer leader log. *)
Lemma ghostL_tl : forall gh t l c,
  ghostL gh -> ld gh t <> None -> l = tl gh t ++ c -> (forall e, In e c -> e_term e = t) -> 1 <= t ->
  forall gh' n, gv gh' = gv gh -> ld gh' = ld gh -> tl gh' = upd (tl gh) t l ->
  acc gh' = upd2 (acc gh) n t (length l) -> ghostL gh'.
Proof.
  intros gh t l c H Hl El Hc H1 gh' n Egv Eld Etl Eacc. destruct H.
  assert (X : forall T, exists r, tl gh' T = tl gh T ++ r).
  { intros T. rewrite Etl. destruct (Nat.eq_dec T t) as [->|].
    - rewrite upd_same; eauto.
    - rewrite upd_other by auto. exists []; rewrite app_nil_r; auto. }
  constructor.
  - intros T p. rewrite Eld, Egv. auto.
  - intros T. rewrite Eld, Etl. destruct (Nat.eq_dec T t) as [->|].
    + rewrite upd_same. split; auto. intros _. subst l. pose proof (proj2 (gl_tl t) Hl).
      destruct (tl gh t); [congruence|discriminate].
    + rewrite upd_other by auto. auto.
  - intros T i e He.
    assert (D : nth_error (tl gh T) i = Some e \/ (T = t /\ nth_error l i = Some e /\ length (tl gh t) <= i)).
    { rewrite Etl in He. destruct (Nat.eq_dec T t) as [->|].
      - rewrite upd_same in He. destruct (le_lt_dec (length (tl gh t)) i); auto.
        left. subst l. rewrite nth_error_app1 in He; auto.
      - rewrite upd_other in He; auto. }
    destruct D as [D|(-> & D & Li)].
    + destruct (gl_log T i e D) as (A & B). split; auto.
      destruct (X T) as [r ->]. destruct (X (e_term e)) as [r' ->]. apply pre_app_l, pre_app_r; auto.
    + assert (e_term e = t).
      { apply Hc. subst l. rewrite nth_error_app2 in D by auto. eapply nth_error_In; eauto. }
      rewrite H. split; [lia|]. rewrite Etl, upd_same. apply pre_refl.
      assert (i < length l) by (apply nth_error_Some; congruence). lia.
  - intros T. rewrite Eld, Etl. intros HT. destruct (Nat.eq_dec T t) as [->|].
    + rewrite upd_same. subst l. destruct (destruct_list c) as [(e & r & Er)|Er].
      * destruct (exists_last (l := c)) as (c0 & x & Ex); [subst c; discriminate|].
        rewrite Ex, app_assoc, lastTerm_snoc. apply Hc. rewrite Ex. apply in_app_iff; simpl; auto.
      * subst c. rewrite app_nil_r. auto.
    + rewrite upd_other by auto. auto.
  - intros k T. rewrite Eacc. destruct (Nat.eq_dec k n) as [->|]; [destruct (Nat.eq_dec T t) as [->|]|].
    + rewrite upd2_same, Etl, upd_same. auto.
    + rewrite upd2_other by auto. destruct (X T) as [r ->]. rewrite app_length. specialize (gl_acc n T). lia.
    + rewrite upd2_other by auto. destruct (X T) as [r ->]. rewrite app_length. specialize (gl_acc k T). lia.
Qed.

Lemma InvL_append : forall f f' net gh n c,
  InvL f net gh -> (forall k, k <> n -> f' k = f k) ->
  nrole (f n) = Leader ->
  let l' := nlog (f n) ++ [mkE (mt (f n)) c] in
  f' n = mkN (n_mem (f n)) (mkD (d_p (n_disk (f n))) l') ->
  InvL f' net (ghTl gh n (mt (f n)) l').
Proof.
  intros f f' net gh n c I Hf Hr l' Hn. pose proof I as (HN & HG & HM).
  destruct (nl_lead _ _ _ _ (HN n) Hr) as (L1 & L2 & L3 & L4).
  assert (H1 : 1 <= mt (f n)).
  { assert (Hne : tl gh (mt (f n)) <> []) by (apply (gl_tl _ _ HG); congruence).
    pose proof (gl_last _ _ HG (mt (f n)) ltac:(congruence)) as Hlast.
    destruct (nth_some _ (tl gh (mt (f n))) 0) as [e He].
    { destruct (tl gh (mt (f n))); simpl; [congruence|lia]. }
    destruct (gl_log _ _ HG _ _ _ He). lia. }
  assert (E : gext n gh (ghTl gh n (mt (f n)) l')).
  { eapply gext_tl; eauto.
    - subst l'. rewrite L3. reflexivity.
    - apply (gl_acc _ _ HG). }
  eapply InvL_frame0; eauto.
  - eapply (ghostL_tl gh (mt (f n)) l' [mkE (mt (f n)) c]); eauto; try reflexivity.
    + congruence.
    + subst l'. rewrite L3; auto.
    + intros e [<-|[]]; auto.
  - pose proof (nl_le _ _ _ _ (HN n)) as Hle. destruct (HN n).
    constructor; subst l'; cbn [n_mem n_disk d_p d_log m_p m_role m_inc m_votes gv ld tl ghTl] in *; auto.
    + intros _. split; auto. split; auto. split; auto. apply upd_same.
    + intros i e He. destruct (lt_dec i (length (nlog (f n)))) as [Hi|Hi].
      * rewrite nth_error_app1 in He by auto. destruct (nl_log i e He) as (A & B). split; auto.
        destruct (Nat.eq_dec (e_term e) (mt (f n))) as [Ee|Ee].
        -- rewrite Ee, upd_same. apply pre_refl. rewrite app_length; lia.
        -- rewrite upd_other by auto. apply pre_app_l; auto.
      * rewrite nth_error_app2 in He by lia.
        destruct (i - length (nlog (f n))) as [|j] eqn:Ei; simpl in He; [|destruct j; discriminate].
        injection He as <-. cbn [e_term]. split; [lia|]. rewrite upd_same. apply pre_refl.
        rewrite app_length; simpl; lia.
  - split; auto. intros _. split; auto. intros _ Hc. cbn in Hc. congruence.
Qed.

Lemma InvL_acc : forall f net gh n t x, x <= length (tl gh t) -> InvL f net gh -> InvL f net (ghAcc gh n t x).
Proof.
  intros f net gh n t x Hx (HN & HG & HM). split; [|split].
  - intros k. destruct (HN k). constructor; auto.
  - destruct HG. constructor; auto. intros k T. simpl.
    destruct (Nat.eq_dec k n) as [->|]; [destruct (Nat.eq_dec T t) as [->|]|].
    + rewrite upd2_same. specialize (gl_acc n t). lia.
    + rewrite upd2_other; auto.
    + rewrite upd2_other; auto.
  - intros y Hy. specialize (HM y Hy). destruct y; auto.
Qed.

(** Becoming leader. *)
Lemma gext_lead : forall gh n i t l,
  ld gh t = None -> tl gh t = [] -> acc gh n t <= 0 -> (forall p, gv gh n t = Some p -> p = (n, i)) ->
  gext n gh (ghLead gh n i t l).
Proof.
  intros gh n i t l Hl Ht Ha Hg. constructor; simpl.
  - intros k T p Hp. destruct (Nat.eq_dec k n) as [->|]; [destruct (Nat.eq_dec T t) as [->|]|].
    + rewrite upd2_same. f_equal. symmetry; auto.
    + rewrite upd2_other; auto.
    + rewrite upd2_other; auto.
  - intros. apply upd2_other; auto.
  - intros T p Hp. rewrite upd_other; auto. intros ->. congruence.
  - intros T k j Hk. destruct (Nat.eq_dec T t) as [->|].
    + rewrite upd_same. intros [= <- _]. congruence.
    + rewrite upd_other; auto.
  - intros T. destruct (Nat.eq_dec T t) as [->|].
    + rewrite upd_same, Ht. exists l; auto.
    + rewrite upd_other by auto. exists []; rewrite app_nil_r; auto.
  - intros T k j Hk Hp. rewrite upd_other; auto. intros ->. congruence.
  - intros k T. destruct (Nat.eq_dec k n) as [->|]; [destruct (Nat.eq_dec T t) as [->|]|].
    + rewrite upd2_same. lia.
    + rewrite upd2_other; auto.
    + rewrite upd2_other; auto.
Qed.

Lemma nodeL_no_term : forall gh k nd t, nodeL gh k nd -> ghostL gh -> ld gh t = None ->
  forall i e, nth_error (nlog nd) i = Some e -> e_term e <> t.
Proof.
  intros gh k nd t H HG Hl i e He Et. destruct (nl_log _ _ _ _ H i e He) as (_ & B & C & _).
  rewrite Et in C. apply (proj1 (gl_tl _ _ HG t)); auto. intros Z. rewrite Z in C. simpl in C. lia.
Qed.

Lemma ghostL_lead : forall gh n i l c Q t,
  ghostL gh -> ld gh t = None -> 1 <= t -> majority cfg Q ->
  (forall v, In v Q -> v = n \/ gv gh v t = Some (n, i)) ->
  (forall p, gv gh n t = Some p -> p = (n, i)) ->
  (forall j e, nth_error l j = Some e -> 1 <= e_term e < t /\ pre (S j) l (tl gh (e_term e))) ->
  ghostL (ghLead gh n i t (l ++ [mkE t c])).
Proof.
  intros gh n i l c Q t H Hl H1 HQ Hv Hg Hlog.
  assert (Ht : tl gh t = []).
  { destruct (tl gh t) eqn:E; auto. exfalso. apply (proj1 (gl_tl _ _ H t)); [rewrite E; discriminate|auto]. }
  assert (Hnt : forall T j e, nth_error (tl gh T) j = Some e -> e_term e <> t).
  { intros T j e He Et. destruct (gl_log _ _ H _ _ _ He) as (_ & _ & B & _). rewrite Et, Ht in B. simpl in B; lia. }
  assert (Hgv : forall k T p, gv gh k T = Some p -> gv (ghLead gh n i t (l ++ [mkE t c])) k T = Some p).
  { intros k T p Hp. simpl. destruct (Nat.eq_dec k n) as [->|]; [destruct (Nat.eq_dec T t) as [->|]|].
    + rewrite upd2_same. f_equal. symmetry; auto.
    + rewrite upd2_other; auto.
    + rewrite upd2_other; auto. }
  destruct H. constructor; cbn [ld tl ghLead].
  - intros T p. destruct (Nat.eq_dec T t) as [->|].
    + rewrite upd_same. intros [= <-]. exists Q; split; auto. intros v Hin.
      destruct (Hv v Hin) as [->|Hp]; [simpl; apply upd2_same|auto].
    + rewrite upd_other by auto. intros Hp. destruct (gl_maj T p Hp) as (Q' & HQ' & Hq').
      exists Q'; split; auto.
  - intros T. destruct (Nat.eq_dec T t) as [->|].
    + rewrite !upd_same. split; intros; [discriminate|]. destruct l; discriminate.
    + rewrite !upd_other by auto. auto.
  - intros T j e He. destruct (Nat.eq_dec T t) as [->|].
    + rewrite upd_same in He |- *. destruct (lt_dec j (length l)) as [Hj|Hj].
      * rewrite nth_error_app1 in He by auto. destruct (Hlog j e He) as (A & B).
        split; [lia|]. rewrite upd_other by lia. apply pre_app_l; auto.
      * rewrite nth_error_app2 in He by lia.
        destruct (j - length l) as [|x] eqn:Ej; simpl in He; [|destruct x; discriminate].
        injection He as <-. cbn [e_term]. split; [lia|]. rewrite upd_same. apply pre_refl.
        rewrite app_length; simpl; lia.
    + rewrite upd_other in He |- * by auto. destruct (gl_log T j e He) as (A & B). split; auto.
      rewrite upd_other; auto. eapply Hnt; eauto.
  - intros T. destruct (Nat.eq_dec T t) as [->|].
    + intros _. rewrite upd_same, lastTerm_snoc. auto.
    + rewrite !upd_other by auto. auto.
  - intros k T. cbn [acc ghLead]. destruct (Nat.eq_dec T t) as [->|].
    + rewrite upd_same. destruct (Nat.eq_dec k n) as [->|].
      * rewrite upd2_same; auto.
      * rewrite upd2_other by auto. specialize (gl_acc k t). rewrite Ht in gl_acc. simpl in *. lia.
    + rewrite upd_other, upd2_other by auto. auto.
Qed.

Lemma InvL_lead : forall f f' net gh n np',
  InvL f net gh -> (forall k, k <> n -> f' k = f k) ->
  nrole (f n) = Candidate -> length cfg < 2 * (1 + countVotes true (m_votes (n_mem (f n)))) ->
  let p' := set_mc (mt (f n)) (m_p (n_mem (f n))) in
  let l' := nlog (f n) ++ [mkE (mt (f n)) noopCmd] in
  let m' := mkM p' Leader (ninc (f n)) (m_votes (n_mem (f n))) np' (m_peers (n_mem (f n))) in
  f' n = mkN m' (mkD p' l') ->
  InvL f' (net ++ map (newAE n m' l' (length (nlog (f n))) 1) (others cfg n))
       (ghLead gh n (ninc (f n)) (mt (f n)) l').
Proof.
  intros f f' net gh n np' I Hf Hr Hq p' l' m' Hn. pose proof I as (HN & HG & HM).
  destruct (lead_unique cfg f net gh n _ I Hr eq_refl Hq) as ((Q & HQ & HQn & HQv) & Hld).
  destruct (nl_cand _ _ _ _ (HN n) Hr) as (C1 & C2 & C3 & C4 & C5).
  assert (Hg : forall p, gv gh n (mt (f n)) = Some p -> p = (n, ninc (f n))).
  { intros p Hp. destruct (gv_fresh cfg gh n (f n) p (HN n) Hp) as (X & _). congruence. }
  assert (Ht : tl gh (mt (f n)) = []).
  { destruct (tl gh (mt (f n))) eqn:E; auto. exfalso.
    apply (proj1 (gl_tl _ _ HG (mt (f n)))); [rewrite E; discriminate|auto]. }
  assert (Hlog : forall j e, nth_error (nlog (f n)) j = Some e ->
            1 <= e_term e < mt (f n) /\ pre (S j) (nlog (f n)) (tl gh (e_term e))).
  { intros j e He. destruct (nl_log _ _ _ _ (HN n) j e He) as (A & B). split; auto.
    pose proof (nl_le _ _ _ _ (HN n)).
    pose proof (nodeL_no_term gh n (f n) _ (HN n) HG Hld j e He). lia. }
  assert (E : gext n gh (ghLead gh n (ninc (f n)) (mt (f n)) l')) by
    (apply gext_lead; auto; pose proof (gl_acc _ _ HG n (mt (f n))) as Z; rewrite Ht in Z; exact Z).
  eapply InvL_frame; eauto.
  - eapply ghostL_lead; eauto. intros v Hv. destruct (Nat.eq_dec v n); auto. right. apply C5. apply HQv; auto.
  - pose proof (nl_le _ _ _ _ (HN n)) as Hle. pose proof (nl_mc _ _ _ _ (HN n)).
    pose proof (HN n) as HNn. destruct HNn.
    constructor; subst m' p'; cbn [n_mem n_disk d_p d_log m_p m_role m_inc m_votes set_mc p_term p_vote p_mc]; auto; try discriminate.
    + intros T p. simpl. destruct (Nat.eq_dec T (mt (f n))) as [->|].
      * rewrite upd2_same. intros [= <-]. right. auto.
      * rewrite upd2_other by auto. intros Hp. destruct (nl_gv T p Hp) as [?|(? & ?)]; left; lia.
    + intros p Hp. rewrite C1 in Hp. injection Hp as <-. simpl. apply upd2_same.
    + intros _. simpl. rewrite !upd_same. auto.
    + intros T j. simpl. destruct (Nat.eq_dec T (mt (f n))) as [->|].
      * rewrite upd_same. intros [= <-]. right; split; auto. right; split; auto. discriminate.
      * rewrite upd_other by auto. intros Hl. destruct (nl_ld T j Hl) as [?|(A & [B|(B & C)])]; auto. congruence.
    + intros j e He. subst l'. simpl. destruct (lt_dec j (length (nlog (f n)))) as [Hj|Hj].
      * rewrite nth_error_app1 in He by auto. destruct (Hlog j e He) as (A & B). split; [lia|].
        rewrite upd_other by lia. apply pre_app_l; auto.
      * rewrite nth_error_app2 in He by lia.
        destruct (j - length (nlog (f n))) as [|x] eqn:Ej; simpl in He; [|destruct x; discriminate].
        injection He as <-. cbn [e_term]. split; [lia|]. rewrite upd_same. apply pre_refl.
        rewrite app_length; simpl; lia.
  - split; auto. intros _. split; auto. intros _ X. discriminate X.
  - intros x Hx. apply in_map_iff in Hx. destruct Hx as (to & <- & Hto).
    unfold newAE, msgL. subst m' p'. cbn [m_inc m_p set_mc p_term p_mc].
    assert (Hlen : length (terms l') = length l') by apply terms_length.
    assert (Hll : length l' = S (length (nlog (f n)))) by (subst l'; rewrite app_length; simpl; lia).
    cbn [ld tl ghLead]. rewrite !upd_same, Hlen.
    split; auto. split; auto. split; auto. split; [lia|].
    split; [rewrite firstn_all; auto|].
    split; [rewrite <- lastTerm_termAt; subst l'; apply lastTerm_snoc|].
    split; [rewrite firstn_length, skipn_length; lia|].
    split; [|split; [auto|]].
    + rewrite firstn_length, skipn_length. f_equal. lia.
    + unfold others in Hto. apply filter_In in Hto. destruct Hto as (_ & Hto). cbn [fst]. intros ->.
      rewrite Nat.eqb_refl in Hto. discriminate.
Qed.

Lemma firstn_plus : forall A a b (l : list A), firstn (a + b) l = firstn a l ++ firstn b (skipn a l).
Proof. induction a as [|a IH]; intros b l; simpl; auto. destruct l; simpl; [rewrite firstn_nil; auto|]. rewrite IH; auto. Qed.
Lemma firstn_self : forall A a (l : list A), firstn (length (firstn a l)) l = firstn a l.
Proof. induction a as [|a IH]; intros l; simpl; auto. destruct l; simpl; auto. rewrite IH; auto. Qed.

(** Log writes of a follower. *)
Lemma nodeL_write : forall f gh n m d net from to lt prev pt es lci mc k,
  InvL f net gh -> nodeL gh n (mkN m d) ->
  let T := p_term (m_p m) in
  In (AppendEntries from to T lt prev pt es lci mc) net ->
  m_role m = Follower -> p_term (d_p d) = T ->
  let c := lcp lt (terms (d_log d)) in
  c < length lt -> prev <= c ->
  let l' := firstn c (d_log d) ++ firstn k (skipn (c - prev) es) in
  (exists j, l' = firstn j (tl gh T) /\ c <= j) /\ nodeL gh n (mkN m (mkD (d_p d) l')).
Proof.
  intros f gh n m d net from to lt prev pt es lci mc k (HN0 & HG & HM) HN T Hin Hr Hd c Hc Hp l'.
  pose proof (HM _ Hin) as X.
  pose proof (ae_common _ f gh n _ _ _ _ _ _ _ _ _ _ HN HG X) as HP.
  simpl in X. destruct X as (X1 & X2 & X3 & X4 & X5 & X6 & X7 & X8 & X9).
  cbn [n_mem n_disk d_log] in HP. fold c in HP.
  assert (El : exists j, l' = firstn j (tl gh T) /\ c <= j).
  { exists (c + length (firstn k (skipn (c - prev) es))). split; [|lia].
    subst l'. destruct HP as (P1 & P2 & P3). rewrite P3.
    rewrite firstn_plus. f_equal.
    rewrite X8. rewrite skipn_firstn_comm, skipn_skipn, firstn_firstn.
    replace (c - prev + prev) with c by lia. symmetry. apply firstn_self. }
  split; auto. destruct El as (j & El & Hj).
  destruct HN. constructor; cbn [n_mem n_disk d_p d_log] in *; auto; try congruence.
  intros i e He. rewrite El in He |- *.
  destruct (lt_dec i (length (firstn j (tl gh T)))) as [Hi|Hi].
  - rewrite firstn_length in Hi.
    rewrite nth_error_firstn_lt in He by lia. destruct (gl_log _ _ HG _ _ _ He) as (A & B).
    split; [lia|]. apply pre_firstn_l; auto; lia.
  - assert (nth_error (firstn j (tl gh T)) i = None) by (apply nth_error_None; lia). congruence.
Qed.
End pres.
