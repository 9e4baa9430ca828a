(** Leader completeness and state machine safety: the part of the invariant that
    needs the guards G1-G3 ([strong] steps). *)
From Coq Require Import List Arith Bool Lia.
From Verif Require Import Base Raft_Model Raft_Spec Raft_Abs Raft_InvL Raft_InvL2.
Import ListNotations.

Section invC.
Variable cfg : list nat.
Notation InvL := (InvL cfg).
Notation nodeL := (nodeL cfg).
Notation ghostL := (ghostL cfg).

(** (T,i) can never be chosen any more. *)
Definition dead (f : nat -> node) (gh : ghost) (T i : nat) : Prop :=
  exists Q, majority cfg Q /\ forall v, In v Q -> T < dt (f v) /\ acc gh v T < i.
(** Entry i of the term-T leader's log, itself of term T, is on a majority. *)
Definition chosen (gh : ghost) (T i : nat) : Prop :=
  1 <= i <= length (tl gh T) /\ termAt (tl gh T) i = T /\
  exists Q, majority cfg Q /\ forall v, In v Q -> i <= acc gh v T.
(** The first [c] entries of [l] are below something chosen in a term <= T. *)
Definition cpre (gh : ghost) (l : list entry) (c T : nat) : Prop :=
  c = 0 \/ exists T0 i0, T0 <= T /\ c <= i0 /\ chosen gh T0 i0 /\ pre c l (tl gh T0).

Record nodeC (f : nat -> node) (net : list msg) (gh : ghost) (k : nat) (nd : node) : Prop := mkNodeC {
  nc_acc : forall T, 0 < acc gh k T -> T <= dt nd;
  nc_log : forall T i, 1 <= i <= acc gh k T -> termAt (tl gh T) i = T ->
    pre i (nlog nd) (tl gh T) \/ dead f gh T i;
  nc_cm : cpre gh (nlog nd) (p_commit (m_p (n_mem nd))) (mt nd);
  nc_cd : cpre gh (nlog nd) (p_commit (d_p (n_disk nd))) (dt nd);
  nc_am : length (p_applied (m_p (n_mem nd))) <= p_commit (m_p (n_mem nd)) /\
          p_applied (m_p (n_mem nd)) = firstn (length (p_applied (m_p (n_mem nd)))) (nlog nd);
  nc_ad : length (p_applied (d_p (n_disk nd))) <= p_commit (d_p (n_disk nd)) /\
          p_applied (d_p (n_disk nd)) = firstn (length (p_applied (d_p (n_disk nd)))) (nlog nd);
  nc_cand : nrole nd = Candidate ->
    (forall q j, In (q, j) (m_peers (n_mem nd)) -> j = 0) /\
    (forall v, In (v, true) (m_votes (n_mem nd)) -> exists from to ft mc, fst from = v /\
       In (Vote from to (k, ninc nd) true ft (mt nd) mc) net);
  nc_lead : nrole nd = Leader -> forall q j, In (q, j) (m_peers (n_mem nd)) -> j <= acc gh (fst q) (mt nd);
  nc_self : nrole nd = Leader -> In k cfg /\ length (nlog nd) <= acc gh k (mt nd)
}.

Definition ghostC (f : nat -> node) (gh : ghost) : Prop :=
  forall T T' i, T < T' -> ld gh T' <> None -> 1 <= i <= length (tl gh T) -> termAt (tl gh T) i = T ->
    pre i (tl gh T') (tl gh T) \/ dead f gh T i.

Definition msgC (f : nat -> node) (net : list msg) (gh : ghost) (x : msg) : Prop :=
  match x with
  | Vote from to c true ft t mc =>
      exists to' li lt mc', In (RequestVote c to' t li lt mc') net /\
        forall T i, T < t -> 1 <= i <= acc gh (fst from) T -> termAt (tl gh T) i = T ->
          (T < lt \/ (T = lt /\ i <= li)) \/ dead f gh T i
  | AppendEntries from to T lt prev pt es lci mc =>
      (es <> [] -> prev + length es = length lt) /\ lci <= length lt /\ cpre gh (tl gh T) lci T
  | Ack from to l st t rej gap lcri li mc =>
      st = t -> (if rej then lcri else li) <= acc gh (fst from) t
  | _ => True
  end.

Definition InvC (f : nat -> node) (net : list msg) (gh : ghost) : Prop :=
  (forall k, nodeC f net gh k (f k)) /\ ghostC f gh /\ (forall x, In x net -> msgC f net gh x).

(** What is needed of a step for everything that does not mention the acting
    node to carry over. *)
Record fext (n : nat) (f f' : nat -> node) (gh gh' : ghost) : Prop := mkFext {
  fe_g : gext n gh gh';
  fe_dt : forall v, dt (f v) <= dt (f' v);
  fe_acc : forall v T, v <> n -> acc gh' v T = acc gh v T;
  fe_fix : forall T, T < dt (f n) -> acc gh' n T = acc gh n T
}.

Lemma dead_ext : forall n f f' gh gh' T i, fext n f f' gh gh' -> dead f gh T i -> dead f' gh' T i.
Proof.
  intros n f f' gh gh' T i E (Q & HQ & H). exists Q; split; auto. intros v Hv.
  destruct (H v Hv) as (A & B). pose proof (fe_dt _ _ _ _ _ E v). split; [lia|].
  destruct (Nat.eq_dec v n) as [->|].
  - rewrite (fe_fix _ _ _ _ _ E); auto.
  - rewrite (fe_acc _ _ _ _ _ E); auto.
Qed.

Lemma tl_ext_termAt : forall n gh gh' T i, gext n gh gh' -> i <= length (tl gh T) ->
  termAt (tl gh' T) i = termAt (tl gh T) i.
Proof.
  intros n gh gh' T i E L. destruct (ge_tl _ _ _ E T) as [c ->].
  apply (termAt_pre i); auto. apply pre_app_l, pre_refl; auto.
Qed.
Lemma tl_ext_len : forall n gh gh' T, gext n gh gh' -> length (tl gh T) <= length (tl gh' T).
Proof. intros n gh gh' T E. destruct (ge_tl _ _ _ E T) as [c ->]. rewrite app_length; lia. Qed.

Lemma chosen_ext : forall n gh gh' T i, gext n gh gh' -> chosen gh T i -> chosen gh' T i.
Proof.
  intros n gh gh' T i E (A & B & Q & HQ & H). pose proof (tl_ext_len _ _ _ T E).
  split; [lia|]. split; [rewrite (tl_ext_termAt _ _ _ _ _ E); auto; lia|].
  exists Q; split; auto. intros v Hv. specialize (H v Hv). pose proof (ge_acc _ _ _ E v T). lia.
Qed.
Lemma cpre_ext : forall n gh gh' l c T, gext n gh gh' -> cpre gh l c T -> cpre gh' l c T.
Proof.
  intros n gh gh' l c T E [->|(T0 & i0 & A & B & C & D)]; [left; auto|right].
  exists T0, i0. split; auto. split; auto. split; [eapply chosen_ext; eauto|eapply pre_tl_ext; eauto].
Qed.
Lemma cpre_T : forall gh l c T T', cpre gh l c T -> T <= T' -> cpre gh l c T'.
Proof. intros gh l c T T' [->|(T0 & i0 & A & B & C & D)] L; [left; auto|right]. exists T0, i0. repeat split; auto; try apply C; try apply D. lia. Qed.
Lemma cpre_log : forall gh l l' c T, cpre gh l c T -> pre c l' l -> cpre gh l' c T.
Proof. intros gh l l' c T [->|(T0 & i0 & A & B & C & D)] L; [left; auto|right]. exists T0, i0. split; auto. split; auto. split; auto. eapply pre_trans; eauto. Qed.
Lemma cpre_le : forall gh l c c' T, cpre gh l c T -> c' <= c -> cpre gh l c' T.
Proof. intros gh l c c' T [->|(T0 & i0 & A & B & C & D)] L; [left; lia|right]. exists T0, i0. split; auto. split; [lia|]. split; auto. eapply pre_le; eauto. Qed.
Lemma cpre_len : forall gh l c T, cpre gh l c T -> c <= length l.
Proof. intros gh l c T [->|(T0 & i0 & A & B & C & D)]; [lia|apply D]. Qed.

Lemma nodeC_ext : forall n f f' net new gh gh' k nd,
  fext n f f' gh gh' -> ghostL gh -> (forall T, acc gh' k T = acc gh k T) -> nodeC f net gh k nd ->
  nodeC f' (net ++ new) gh' k nd.
Proof.
  intros n f f' net new gh gh' k nd E HG Ha H. destruct H. pose proof (fe_g _ _ _ _ _ E) as Eg. constructor; auto.
  - intros T. rewrite Ha. auto.
  - intros T i. rewrite Ha. intros Hi. pose proof (gl_acc _ _ HG k T).
    rewrite (tl_ext_termAt _ _ _ _ _ Eg) by lia. intros Ht.
    destruct (nc_log0 T i Hi Ht) as [X|X]; [left; eapply pre_tl_ext; eauto|right; eapply dead_ext; eauto].
  - eapply cpre_ext; eauto.
  - eapply cpre_ext; eauto.
  - intros Hr. destruct (nc_cand0 Hr) as (A & B). split; auto. intros v Hv.
    destruct (B v Hv) as (from & to & ft & mc & C & D). exists from, to, ft, mc. split; auto. apply in_app_iff; auto.
  - intros Hr q j Hq. specialize (nc_lead0 Hr q j Hq). pose proof (ge_acc _ _ _ Eg (fst q) (mt nd)). lia.
  - rewrite Ha. auto.
Qed.

Lemma msgC_ext : forall n f f' net new gh gh' x,
  fext n f f' gh gh' -> InvL f net gh -> In x net -> msgC f net gh x -> msgC f' (net ++ new) gh' x.
Proof.
  intros n f f' net new gh gh' x E (HN & HG & HM) Hin H. pose proof (fe_g _ _ _ _ _ E) as Eg.
  specialize (HM x Hin).
  destruct x as [|from to c g ft t mc|from to T lt prev pt es lci mc|]; simpl in *; auto.
  - destruct g; auto. destruct H as (to' & li & lt & mc' & A & B).
    exists to', li, lt, mc'. split; [apply in_app_iff; auto|].
    destruct HM as (_ & HM). destruct (HM eq_refl) as (_ & Hgv).
    assert (Hd : t <= dt (f (fst from))) by (destruct (nl_gv _ _ _ _ (HN (fst from)) _ _ Hgv); lia).
    intros T i HT.
    assert (Ea : acc gh' (fst from) T = acc gh (fst from) T).
    { destruct (Nat.eq_dec (fst from) n) as [En|]; [|apply (fe_acc _ _ _ _ _ E); auto].
      rewrite En in *. apply (fe_fix _ _ _ _ _ E). lia. }
    rewrite Ea. intros Hi. pose proof (gl_acc _ _ HG (fst from) T).
    rewrite (tl_ext_termAt _ _ _ _ _ Eg) by lia. intros Ht.
    destruct (B T i HT Hi Ht) as [X|X]; [left; auto|right; eapply dead_ext; eauto].
  - destruct H as (A & B & C). split; auto. split; auto.
    destruct (ge_tl _ _ _ Eg T) as [r Er]. apply (cpre_ext _ _ _ _ _ _ Eg) in C.
    eapply cpre_log; eauto. rewrite Er. apply pre_app_l, pre_refl.
    pose proof (cpre_len _ _ _ _ C). lia.
  - intros Hs. specialize (H Hs). pose proof (ge_acc _ _ _ Eg (fst from) term). lia.
Qed.

Lemma InvC_frame : forall n f f' net new gh gh' nd',
  InvL f net gh -> InvC f net gh -> fext n f f' gh gh' ->
  (forall k, k <> n -> f' k = f k) -> f' n = nd' ->
  nodeC f' (net ++ new) gh' n nd' -> ghostC f' gh' ->
  (forall x, In x new -> msgC f' (net ++ new) gh' x) ->
  InvC f' (net ++ new) gh'.
Proof.
  intros n f f' net new gh gh' nd' IL (CN & CG & CM) E Hf Hn N G X. pose proof IL as (HN & HG & HM).
  split; [|split]; auto.
  - intros k. destruct (Nat.eq_dec k n) as [->|Hk]; [rewrite Hn; auto|].
    rewrite Hf by auto. eapply nodeC_ext; eauto. intros T. apply (fe_acc _ _ _ _ _ E); auto.
  - intros x Hx. apply in_app_iff in Hx. destruct Hx as [Hx|Hx]; auto.
    eapply msgC_ext; eauto.
Qed.

Lemma ghostC_same : forall n f f' gh gh', fext n f f' gh gh' -> tl gh' = tl gh -> ld gh' = ld gh ->
  ghostC f gh -> ghostC f' gh'.
Proof.
  intros n f f' gh gh' E Et El H T T' i HT. rewrite Et, El. intros Hl Hi Ht.
  destruct (H T T' i HT Hl Hi Ht) as [X|X]; [left; auto|right; eapply dead_ext; eauto].
Qed.

(** Steps in which only node [n] changes (and perhaps its durable vote). *)
Lemma InvC_node : forall n f f' net gh gh' nd',
  InvL f net gh -> InvC f net gh -> gext n gh gh' -> tl gh' = tl gh -> ld gh' = ld gh -> acc gh' = acc gh ->
  (forall k, k <> n -> f' k = f k) -> f' n = nd' -> dt (f n) <= dt nd' ->
  (forall f'' net'' , fext n f f'' gh gh' -> nodeC f'' net'' gh' n (f n) -> nodeC f'' net'' gh' n nd') ->
  InvC f' net gh'.
Proof.
  intros n f f' net gh gh' nd' IL IC E Et El Ea Hf Hn Hd N.
  assert (FE : fext n f f' gh gh').
  { constructor; auto.
    - intros v. destruct (Nat.eq_dec v n) as [->|]; [rewrite Hn; auto|rewrite Hf; auto].
    - intros; rewrite Ea; auto.
    - intros; rewrite Ea; auto. }
  rewrite <- (app_nil_r net). eapply InvC_frame; eauto.
  - apply N; auto. eapply nodeC_ext; eauto; [apply IL|intros; rewrite Ea; auto|apply IC].
  - eapply ghostC_same; eauto. apply IC.
  - simpl; tauto.
Qed.

Lemma InvC_send : forall n f f' net gh x,
  InvL f net gh -> InvC f net gh -> (forall k, k <> n -> f' k = f k) -> f' n = f n ->
  (forall f'', fext n f f'' gh gh -> msgC f'' (net ++ [x]) gh x) ->
  InvC f' (net ++ [x]) gh.
Proof.
  intros n f f' net gh x IL IC Hf Hn X.
  assert (FE : fext n f f' gh gh).
  { constructor; auto using gext_refl.
    intros v. destruct (Nat.eq_dec v n) as [->|]; [rewrite Hn; auto|rewrite Hf; auto]. }
  eapply InvC_frame; eauto.
  - eapply nodeC_ext; eauto; [apply IL|apply IC].
  - eapply ghostC_same; eauto. apply IC.
  - intros y [<-|[]]. auto.
Qed.

(** The majority behind a leader of a later term. *)
Lemma later_leader_majority : forall f net gh T', InvL f net gh -> ld gh T' <> None ->
  exists Q, majority cfg Q /\ forall v, In v Q -> T' <= dt (f v).
Proof.
  intros f net gh T' (HN & HG & HM) Hl. destruct (ld gh T') as [p|] eqn:E; [|congruence].
  destruct (gl_maj _ _ HG _ _ E) as (Q & HQ & Hg). exists Q; split; auto.
  intros v Hv. destruct (nl_gv _ _ _ _ (HN v) _ _ (Hg v Hv)); lia.
Qed.

Lemma chosen_not_dead : forall f gh T i, chosen gh T i -> dead f gh T i -> False.
Proof.
  intros f gh T i (_ & _ & Q1 & H1 & A1) (Q2 & H2 & A2).
  destruct (majorities_meet cfg Q1 Q2 H1 H2) as (v & V1 & V2).
  specialize (A1 v V1). destruct (A2 v V2). lia.
Qed.

(** A chosen entry is in the log of every later leader. *)
Lemma chosen_later : forall f gh T i T', ghostC f gh -> chosen gh T i -> T <= T' -> ld gh T' <> None ->
  pre i (tl gh T') (tl gh T).
Proof.
  intros f gh T i T' HC Hch HT Hl. destruct (Nat.eq_dec T T') as [<-|Hne].
  - apply pre_refl. apply Hch.
  - destruct Hch as (A & B & C). destruct (HC T T' i) as [X|X]; auto; [lia|].
    exfalso. eapply chosen_not_dead; [split; eauto|eauto].
Qed.

Lemma chosen_ld : forall gh T i, ghostL gh -> chosen gh T i -> ld gh T <> None.
Proof.
  intros gh T i HG (A & _). apply (gl_tl _ _ HG). intros Z. rewrite Z in A. simpl in A. lia.
Qed.

(** Two committed prefixes agree. *)
Lemma cpre_agree : forall f gh l1 c1 T1 l2 c2 T2,
  ghostL gh -> ghostC f gh -> cpre gh l1 c1 T1 -> cpre gh l2 c2 T2 -> c1 <= c2 -> pre c1 l1 l2.
Proof.
  intros f gh l1 c1 T1 l2 c2 T2 HG HC [->|(A & i & _ & L1 & C1 & P1)] H2 L; [unfold pre; simpl; repeat split; lia|].
  destruct H2 as [->|(B & j & _ & L2 & C2 & P2)].
  - replace c1 with 0 by lia. unfold pre; simpl; repeat split; lia.
  - apply pre_le with (j := c1) in P2; [|lia].
    eapply pre_trans; [exact P1|]. apply pre_sym. eapply pre_trans; [exact P2|].
    destruct (le_lt_dec A B) as [X|X].
    + eapply pre_le; [eapply chosen_later; eauto; eapply chosen_ld; eauto|lia].
    + apply pre_sym. eapply pre_le; [eapply chosen_later; eauto; [lia|eapply chosen_ld; eauto]|lia].
Qed.

(** A log of which index [i] carries term T and reaches at least [i]. *)
Lemma tl_mono_terms : forall gh T i j, ghostL gh -> 1 <= i <= j -> j <= length (tl gh T) ->
  termAt (tl gh T) i <= termAt (tl gh T) j.
Proof.
  intros gh T i j HG Hi Hj.
  destruct (termAt_ex (tl gh T) i) as (a & A1 & A2); [lia|].
  destruct (termAt_ex (tl gh T) j) as (b & B1 & B2); [lia|]. rewrite A2, B2.
  destruct (gl_log _ _ HG _ _ _ B1) as (_ & P).
  rewrite (pre_nth _ (i - 1) _ _ P) in A1 by lia.
  destruct (gl_log _ _ HG _ _ _ A1) as (X & _). lia.
Qed.

Lemma node_last : forall gh k nd, nodeL gh k nd -> nlog nd <> [] ->
  pre (length (nlog nd)) (nlog nd) (tl gh (lastTerm (nlog nd))) /\ lastTerm (nlog nd) <= dt nd.
Proof.
  intros gh k nd H Hne. assert (0 < length (nlog nd)) by (destruct (nlog nd); simpl; [congruence|lia]).
  destruct (termAt_ex (nlog nd) (length (nlog nd))) as (e & E1 & E2); [lia|].
  rewrite lastTerm_termAt, E2. destruct (nl_log _ _ _ _ H _ _ E1) as (A & B).
  replace (S (length (nlog nd) - 1)) with (length (nlog nd)) in B by lia. split; auto. lia.
Qed.

Lemma node_mono_terms : forall gh k nd i j, nodeL gh k nd -> ghostL gh -> 1 <= i <= j -> j <= length (nlog nd) ->
  termAt (nlog nd) i <= termAt (nlog nd) j.
Proof.
  intros gh k nd i j H HG Hi Hj. assert (Hne : nlog nd <> []) by (intros Z; rewrite Z in Hj; simpl in Hj; lia).
  destruct (node_last gh k nd H Hne) as (P & _).
  rewrite (termAt_pre _ i _ _ P), (termAt_pre _ j _ _ P) by lia. apply tl_mono_terms; auto. destruct P; lia.
Qed.

(** A log holding entry i of the term-T leader (of term T) is at least that
    up to date. *)
Lemma holds_last : forall gh k nd T i, nodeL gh k nd -> ghostL gh ->
  1 <= i -> pre i (nlog nd) (tl gh T) -> termAt (tl gh T) i = T ->
  T <= lastTerm (nlog nd) /\ i <= length (nlog nd).
Proof.
  intros gh k nd T i H HG Hi HP Ht. pose proof HP as (A & B & C). split; auto.
  rewrite <- Ht at 1. rewrite <- (termAt_pre _ i _ _ HP) by lia. rewrite lastTerm_termAt.
  eapply node_mono_terms; eauto.
Qed.

(** The converse used at elections: a log at least as up to date as (T,i). *)
Lemma uptodate_holds : forall f gh k nd T i, nodeL gh k nd -> ghostL gh -> ghostC f gh ->
  1 <= i <= length (tl gh T) -> termAt (tl gh T) i = T ->
  (T < lastTerm (nlog nd) \/ (T = lastTerm (nlog nd) /\ i <= length (nlog nd))) ->
  pre i (nlog nd) (tl gh T) \/ dead f gh T i.
Proof.
  intros f gh k nd T i H HG HC Hi Ht Hup.
  assert (H1 : 1 <= T).
  { destruct (termAt_ex (tl gh T) i) as (e & E1 & E2); [lia|]. destruct (gl_log _ _ HG _ _ _ E1). lia. }
  assert (Hne : nlog nd <> []).
  { intros Z. rewrite Z in Hup. unfold lastTerm in Hup. simpl in Hup. lia. }
  destruct (node_last gh k nd H Hne) as (P & _). set (Tl := lastTerm (nlog nd)) in *.
  destruct Hup as [L|(-> & L)].
  - assert (Hl : ld gh Tl <> None).
    { apply (gl_tl _ _ HG). intros Z. rewrite Z in P. destruct P as (_ & P & _). simpl in P.
      destruct (nlog nd); simpl in P; [congruence|lia]. }
    destruct (HC T Tl i) as [X|X]; auto. left.
    destruct (le_lt_dec i (length (nlog nd))) as [Y|Y].
    + eapply pre_trans; [|exact X]. eapply pre_le; eauto.
    + exfalso. (* position length(log) of tl Tl has term Tl > T, before position i of term T *)
      assert (Hlen : 0 < length (nlog nd)) by (destruct (nlog nd); simpl; [congruence|lia]).
      assert (A : termAt (tl gh Tl) (length (nlog nd)) = Tl).
      { rewrite <- (termAt_pre _ (length (nlog nd)) _ _ P) by lia. unfold Tl. rewrite lastTerm_termAt. auto. }
      assert (B : termAt (tl gh Tl) i = T) by (rewrite (termAt_pre _ i _ _ X) by lia; auto).
      pose proof (tl_mono_terms gh Tl (length (nlog nd)) i HG ltac:(lia) ltac:(destruct X; lia)). lia.
  - left. eapply pre_le; eauto.
Qed.
End invC.
