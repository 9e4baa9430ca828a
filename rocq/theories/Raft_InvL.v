(** Election safety and log matching: an invariant of the small steps of
    Raft_Abs that needs none of the guards G1-G3. *)
From Coq Require Import List Arith Bool Lia.
From Verif Require Import Base Raft_Model Raft_Spec Raft_Abs.
Import ListNotations.

(** Common prefixes of length [i]. *)
Definition pre {A} (i : nat) (a b : list A) : Prop :=
  i <= length a /\ i <= length b /\ firstn i a = firstn i b.

Section pre.
Context {A : Type}.
Implicit Types a b c : list A.
Lemma pre_refl : forall i a, i <= length a -> pre i a a.
Proof. unfold pre; auto. Qed.
Lemma pre_sym : forall i a b, pre i a b -> pre i b a.
Proof. unfold pre; intuition. Qed.
Lemma pre_trans : forall i a b c, pre i a b -> pre i b c -> pre i a c.
Proof. unfold pre; intuition congruence. Qed.
Lemma pre_le : forall i j a b, pre i a b -> j <= i -> pre j a b.
Proof.
  unfold pre; intros i j a b (H1 & H2 & H3) L. repeat split; try lia.
  rewrite <- (firstn_firstn a j i) || idtac.
  replace (firstn j a) with (firstn j (firstn i a)) by (rewrite firstn_firstn; f_equal; lia).
  replace (firstn j b) with (firstn j (firstn i b)) by (rewrite firstn_firstn; f_equal; lia).
  congruence.
Qed.
Lemma pre_app_l : forall i a b c, pre i a b -> pre i (a ++ c) b.
Proof.
  unfold pre; intros i a b c (H1 & H2 & H3). rewrite app_length. repeat split; try lia.
  rewrite firstn_app. replace (i - length a) with 0 by lia. simpl. rewrite app_nil_r. auto.
Qed.
Lemma pre_app_r : forall i a b c, pre i a b -> pre i a (b ++ c).
Proof. intros. apply pre_sym, pre_app_l, pre_sym; auto. Qed.
Lemma pre_nth : forall i j a b, pre i a b -> j < i -> nth_error a j = nth_error b j.
Proof.
  unfold pre; intros i j a b (H1 & H2 & H3) L.
  rewrite <- (nth_error_firstn_lt _ i j a), <- (nth_error_firstn_lt _ i j b) by auto. congruence.
Qed.
Lemma pre_intro : forall i a b, i <= length a ->
  (forall j, j < i -> nth_error a j = nth_error b j) -> pre i a b.
Proof.
  induction i as [|i IH]; intros a b L H.
  - unfold pre; simpl; repeat split; try lia.
  - destruct a as [|x a]; simpl in L; [lia|].
    pose proof (H 0 ltac:(lia)) as H0. destruct b as [|y b]; simpl in H0; [discriminate|].
    injection H0 as <-. destruct (IH a b) as (P1 & P2 & P3); [lia| |].
    + intros j Hj. apply (H (S j)); lia.
    + unfold pre; simpl; repeat split; try lia. congruence.
Qed.
Lemma pre_firstn_l : forall i k a b, pre i a b -> i <= k -> pre i (firstn k a) b.
Proof.
  unfold pre; intros i k a b (H1 & H2 & H3) L. rewrite firstn_length, firstn_firstn.
  repeat split; try lia. replace (Nat.min i k) with i by lia; auto.
Qed.
Lemma pre_whole : forall a b, pre (length a) a b -> exists c, b = a ++ c.
Proof.
  intros a b (H1 & H2 & H3). rewrite firstn_all in H3. exists (skipn (length a) b).
  rewrite H3 at 1. symmetry. apply firstn_skipn.
Qed.
Lemma pre_snoc : forall i a b x, pre i (a ++ [x]) b -> i <= length a -> pre i a b.
Proof.
  unfold pre; intros i a b x (H1 & H2 & H3) L. repeat split; auto.
  rewrite firstn_app in H3. replace (i - length a) with 0 in H3 by lia. simpl in H3.
  rewrite app_nil_r in H3; auto.
Qed.
End pre.

Lemma lcp_le_l : forall a b, lcp a b <= length a.
Proof. induction a as [|x a IH]; destruct b as [|y b]; simpl; try lia. destruct (x =? y); try lia. specialize (IH b); lia. Qed.
Lemma lcp_le_r : forall a b, lcp a b <= length b.
Proof. induction a as [|x a IH]; destruct b as [|y b]; simpl; try lia. destruct (x =? y); try lia. specialize (IH b); lia. Qed.
Lemma lcp_pre : forall a b, pre (lcp a b) a b.
Proof.
  induction a as [|x a IH]; destruct b as [|y b]; simpl; try (apply pre_intro; simpl; [lia|intros; lia]).
  destruct (Nat.eqb_spec x y) as [->|]; [|apply pre_intro; simpl; [lia|intros; lia]].
  destruct (IH b) as (H1 & H2 & H3). unfold pre; simpl; repeat split; try lia. congruence.
Qed.
Lemma lcp_max : forall i a b, pre i a b -> i <= lcp a b.
Proof.
  induction i as [|i IH]; intros a b H; [lia|].
  destruct H as (H1 & H2 & H3). destruct a as [|x a]; simpl in *; [lia|].
  destruct b as [|y b]; simpl in *; [lia|]. injection H3 as -> H3. rewrite Nat.eqb_refl.
  specialize (IH a b). unfold pre in IH. specialize (IH ltac:(repeat split; auto; lia)). lia.
Qed.
Lemma pre_map : forall A B (h : A -> B) i a b, pre i a b -> pre i (map h a) (map h b).
Proof. unfold pre; intros A B h i a b (H1 & H2 & H3). rewrite !map_length, !firstn_map. repeat split; auto; congruence. Qed.

Lemma terms_length : forall l, length (terms l) = length l.
Proof. intros; apply map_length. Qed.
Lemma terms_app : forall a b, terms (a ++ b) = terms a ++ terms b.
Proof. intros; apply map_app. Qed.
Lemma terms_nth : forall l i e, nth_error l i = Some e -> nth_error (terms l) i = Some (e_term e).
Proof. intros l i e H. apply (map_nth_error e_term _ _ H). Qed.
Lemma terms_firstn : forall k l, terms (firstn k l) = firstn k (terms l).
Proof. intros; unfold terms; symmetry; apply firstn_map. Qed.
Lemma termAt_nth : forall l i e, nth_error l i = Some e -> termAt l (S i) = e_term e.
Proof. intros l i e H; simpl. apply nth_error_nth, terms_nth; auto. Qed.
Lemma termAt_pre : forall i j a b, pre i a b -> j <= i -> termAt a j = termAt b j.
Proof.
  intros i [|j] a b H L; simpl; auto.
  pose proof (pre_nth _ j _ _ (pre_map _ _ e_term _ _ _ H) L) as E. unfold terms.
  revert E. generalize (map e_term a) (map e_term b). intros x y E.
  rewrite !nth_default_eq || idtac.
  destruct (nth_error x j) eqn:E1; symmetry in E.
  - rewrite (nth_error_nth _ _ 0 E1), (nth_error_nth _ _ 0 E); auto.
  - apply nth_error_None in E1, E. rewrite !nth_overflow by auto; auto.
Qed.
Lemma nth_some : forall A (l : list A) i, i < length l -> exists e, nth_error l i = Some e.
Proof. intros A l i H. destruct (nth_error l i) eqn:E; eauto. apply nth_error_None in E; lia. Qed.
Lemma termAt_ex : forall l i, 1 <= i <= length l -> exists e, nth_error l (i - 1) = Some e /\ termAt l i = e_term e.
Proof.
  intros l [|i] H; [lia|]. replace (S i - 1) with i by lia.
  destruct (nth_some _ l i) as [e He]; [lia|]. exists e; split; auto. apply termAt_nth; auto.
Qed.
Lemma lastTerm_termAt : forall l, lastTerm l = termAt l (length l).
Proof.
  intros l. unfold lastTerm. destruct (length l) as [|k] eqn:E.
  - destruct l; [reflexivity|discriminate].
  - simpl. rewrite <- (terms_length l) in E. revert E. generalize (terms l). clear.
    induction k as [|k IH]; intros [|x l] E; simpl in *; try lia.
    + destruct l; simpl in *; [auto|lia].
    + destruct l as [|y l]; simpl in *; [lia|]. apply (IH (y :: l)). simpl; lia.
Qed.
Lemma lastTerm_snoc : forall l e, lastTerm (l ++ [e]) = e_term e.
Proof. intros. unfold lastTerm. rewrite terms_app. simpl. rewrite last_last. auto. Qed.

(** Sets of nodes that are a majority. *)
Definition majority (cfg Q : list nat) : Prop :=
  NoDup Q /\ incl Q cfg /\ length cfg < 2 * length Q.
Lemma majorities_meet : forall cfg Q1 Q2, majority cfg Q1 -> majority cfg Q2 -> exists v, In v Q1 /\ In v Q2.
Proof.
  intros cfg Q1 Q2 (N1 & I1 & L1) (N2 & I2 & L2).
  destruct (Exists_dec (fun v => In v Q2) Q1 (fun x => in_dec Nat.eq_dec x Q2)) as [H|H].
  - apply Exists_exists in H. destruct H as (x & ? & ?); eauto.
  - exfalso. assert (Hn : NoDup (Q1 ++ Q2)).
    { clear L1 L2 I1 I2. induction Q1 as [|x Q1 IH]; simpl; auto.
      inversion N1; subst. constructor.
      - rewrite in_app_iff. intros [Hi|Hi]; [contradiction|]. apply H. left; exact Hi.
      - apply IH; auto. }
    assert (length (Q1 ++ Q2) <= length cfg).
    { apply NoDup_incl_length; auto. intros x Hx. apply in_app_iff in Hx. destruct Hx; auto. }
    rewrite app_length in *. lia.
Qed.

(** Auxiliary history. [gv n T]: the vote node [n] made durable in term [T];
    [ld T]: who became leader in term [T]; [tl T]: that leader's log (its longest
    extent); [acc n T]: how much of [tl T] node [n] has confirmed holding. *)
Record ghost := mkGh {
  gv : nat -> nat -> option pid;
  ld : nat -> option pid;
  tl : nat -> list entry;
  acc : nat -> nat -> nat
}.
Definition upd2 {A} (f : nat -> nat -> A) (n t : nat) (x : A) : nat -> nat -> A :=
  fun k u => if (k =? n) && (u =? t) then x else f k u.
Lemma upd_same : forall A (f : nat -> A) n x, upd f n x n = x.
Proof. intros. unfold upd. rewrite Nat.eqb_refl. auto. Qed.
Lemma upd_other : forall A (f : nat -> A) n x k, k <> n -> upd f n x k = f k.
Proof. intros. unfold upd. destruct (Nat.eqb_spec k n); congruence. Qed.
Lemma upd2_same : forall A (f : nat -> nat -> A) n t x, upd2 f n t x n t = x.
Proof. intros. unfold upd2. rewrite !Nat.eqb_refl. auto. Qed.
Lemma upd2_other : forall A (f : nat -> nat -> A) n t x k u, k <> n \/ u <> t -> upd2 f n t x k u = f k u.
Proof.
  intros A f n t x k u H. unfold upd2. destruct (Nat.eqb_spec k n); destruct (Nat.eqb_spec u t); simpl; auto.
  destruct H; congruence.
Qed.

Definition ghVote (gh : ghost) (n t : nat) (v : option pid) : ghost :=
  match v with
  | Some _ => mkGh (upd2 (gv gh) n t v) (ld gh) (tl gh) (acc gh)
  | None => gh
  end.
Definition ghTl (gh : ghost) (n t : nat) (l : list entry) : ghost :=
  mkGh (gv gh) (ld gh) (upd (tl gh) t l) (upd2 (acc gh) n t (length l)).
Definition ghLead (gh : ghost) (n i t : nat) (l : list entry) : ghost :=
  mkGh (upd2 (gv gh) n t (Some (n, i))) (upd (ld gh) t (Some (n, i))) (upd (tl gh) t l)
       (upd2 (acc gh) n t (length l)).
Definition ghAcc (gh : ghost) (n t x : nat) : ghost :=
  mkGh (gv gh) (ld gh) (tl gh) (upd2 (acc gh) n t (Nat.max (acc gh n t) x)).

Notation mt nd := (p_term (m_p (n_mem nd))).
Notation mv nd := (p_vote (m_p (n_mem nd))).
Notation dt nd := (p_term (d_p (n_disk nd))).
Notation dv nd := (p_vote (d_p (n_disk nd))).
Notation nlog nd := (d_log (n_disk nd)).
Notation nrole nd := (m_role (n_mem nd)).
Notation ninc nd := (m_inc (n_mem nd)).

Section invL.
Variable cfg : list nat.

Record nodeL (gh : ghost) (k : nat) (nd : node) : Prop := mkNodeL {
  nl_le : dt nd <= mt nd;
  nl_vote : dt nd = mt nd -> dv nd = mv nd;
  nl_gv : forall T p, gv gh k T = Some p -> T < dt nd \/ (T = dt nd /\ dv nd = Some p);
  nl_dv : forall p, dv nd = Some p -> gv gh k (dt nd) = Some p;
  nl_cand : nrole nd = Candidate ->
    mv nd = Some (k, ninc nd) /\ In k cfg /\ 1 <= mt nd /\ NoDup (map fst (m_votes (n_mem nd))) /\
    (forall v, In (v, true) (m_votes (n_mem nd)) -> v <> k /\ In v cfg /\ gv gh v (mt nd) = Some (k, ninc nd));
  nl_lead : nrole nd = Leader ->
    ld gh (mt nd) = Some (k, ninc nd) /\ dt nd = mt nd /\ tl gh (mt nd) = nlog nd /\ p_mc (m_p (n_mem nd)) = mt nd;
  nl_ld : forall T i, ld gh T = Some (k, i) ->
    i < ninc nd \/ (i = ninc nd /\ (T < mt nd \/ (T = mt nd /\ nrole nd <> Candidate)));
  nl_log : forall i e, nth_error (nlog nd) i = Some e ->
    1 <= e_term e <= dt nd /\ pre (S i) (nlog nd) (tl gh (e_term e));
  nl_mc : p_mc (m_p (n_mem nd)) <= dt nd /\ p_mc (d_p (n_disk nd)) <= dt nd
}.

Record ghostL (gh : ghost) : Prop := mkGhostL {
  gl_maj : forall T p, ld gh T = Some p -> exists Q, majority cfg Q /\ forall v, In v Q -> gv gh v T = Some p;
  gl_tl : forall T, tl gh T <> [] <-> ld gh T <> None;
  gl_log : forall T i e, nth_error (tl gh T) i = Some e ->
    1 <= e_term e <= T /\ pre (S i) (tl gh T) (tl gh (e_term e));
  gl_last : forall T, ld gh T <> None -> lastTerm (tl gh T) = T;
  gl_acc : forall k T, acc gh k T <= length (tl gh T)
}.

Definition msgL (f : nat -> node) (gh : ghost) (x : msg) : Prop :=
  match x with
  | RequestVote c to t li lt mc =>
      to <> fst c /\ mc <= t /\ snd c <= ninc (f (fst c)) /\
      (snd c = ninc (f (fst c)) -> t <= mt (f (fst c)) /\
         (t = mt (f (fst c)) -> nrole (f (fst c)) = Candidate ->
            li = length (nlog (f (fst c))) /\ lt = lastTerm (nlog (f (fst c)))))
  | Vote from to c g ft t mc => mc <= t /\ (g = true -> fst from <> fst c /\ gv gh (fst from) t = Some c)
  | AppendEntries from to T lt prev pt es lci mc =>
      ld gh T = Some from /\ mc = T /\ 1 <= T /\ 1 <= length lt <= length (tl gh T) /\
      lt = terms (firstn (length lt) (tl gh T)) /\ termAt (tl gh T) (length lt) = T /\
      prev + length es <= length lt /\ es = firstn (length es) (skipn prev (tl gh T)) /\
      (es <> [] -> pt = termAt (tl gh T) prev) /\ to <> fst from
  | Ack from to l st t rej gap lcri li mc => mc <= t
  end.

Definition InvL (f : nat -> node) (net : list msg) (gh : ghost) : Prop :=
  (forall k, nodeL gh k (f k)) /\ ghostL gh /\ (forall x, In x net -> msgL f gh x).

(** How the history grows while node [n] acts. *)
Record gext (n : nat) (gh gh' : ghost) : Prop := mkGext {
  ge_gv : forall k T p, gv gh k T = Some p -> gv gh' k T = Some p;
  ge_gvo : forall k T, k <> n -> gv gh' k T = gv gh k T;
  ge_ld : forall T p, ld gh T = Some p -> ld gh' T = Some p;
  ge_ldo : forall T k i, k <> n -> ld gh' T = Some (k, i) -> ld gh T = Some (k, i);
  ge_tl : forall T, exists c, tl gh' T = tl gh T ++ c;
  ge_tlo : forall T k i, k <> n -> ld gh T = Some (k, i) -> tl gh' T = tl gh T;
  ge_acc : forall k T, acc gh k T <= acc gh' k T
}.

Lemma gext_refl : forall n gh, gext n gh gh.
Proof. intros; constructor; auto. intros; exists []. rewrite app_nil_r; auto. Qed.

Lemma pre_tl_ext : forall n gh gh' i T l, gext n gh gh' -> pre i l (tl gh T) -> pre i l (tl gh' T).
Proof. intros n gh gh' i T l E H. destruct (ge_tl _ _ _ E T) as [c ->]. apply pre_app_r; auto. Qed.

Lemma nodeL_ext : forall n gh gh' k nd, gext n gh gh' -> k <> n -> nodeL gh k nd -> nodeL gh' k nd.
Proof.
  intros n gh gh' k nd E Hk H. destruct H. constructor; auto.
  - intros T p. rewrite (ge_gvo _ _ _ E) by auto. auto.
  - intros p Hp. apply (ge_gv _ _ _ E); auto.
  - intros Hr. destruct (nl_cand0 Hr) as (A & B & C & D & F). repeat split; auto.
    + apply F; auto.
    + apply F; auto.
    + apply (ge_gv _ _ _ E), F; auto.
  - intros Hr. destruct (nl_lead0 Hr) as (A & B & C & D). repeat split; auto.
    + apply (ge_ld _ _ _ E); auto.
    + rewrite (ge_tlo _ _ _ E _ _ _ Hk A); auto.
  - intros T i Hl. apply nl_ld0. apply (ge_ldo _ _ _ E); auto.
  - intros i e He. destruct (nl_log0 i e He). split; auto. eapply pre_tl_ext; eauto.
Qed.

Lemma terms_firstn_ext : forall k (a c : list entry), k <= length a -> firstn k (a ++ c) = firstn k a.
Proof. intros. rewrite firstn_app. replace (k - length a) with 0 by lia. simpl. apply app_nil_r. Qed.

Lemma msgL_ext : forall n gh gh' f f' x,
  gext n gh gh' -> (forall k, k <> n -> f' k = f k) ->
  (forall c to t li lt mc, x = RequestVote c to t li lt mc -> fst c = n -> msgL f gh x -> msgL f' gh x) ->
  msgL f gh x -> msgL f' gh' x.
Proof.
  intros n gh gh' f f' x E Hf Hrv H. destruct x as [c to t li lt mc|from to c g ft t mc|from to T lt prev pt es lci mc|]; simpl in *; auto.
  - destruct (Nat.eq_dec (fst c) n) as [En|En].
    + eapply Hrv; eauto.
    + rewrite Hf by auto. auto.
  - destruct H as (A & B). split; auto. intros Hg. destruct (B Hg). split; auto. apply (ge_gv _ _ _ E); auto.
  - destruct H as (A & B & C & D & F & G & I & J & K & K2).
    destruct (ge_tl _ _ _ E T) as [r Er]. rewrite Er.
    split; [apply (ge_ld _ _ _ E); auto|]. split; auto. split; auto.
    split; [rewrite app_length; lia|].
    split; [rewrite terms_firstn_ext by lia; auto|].
    split; [rewrite <- G at 2; eapply (termAt_pre (length lt)); auto; apply pre_app_l, pre_refl; lia|].
    split; auto.
    split.
    + rewrite J at 1. rewrite skipn_app, terms_firstn_ext; auto. rewrite skipn_length. lia.
    + split; auto. intros Hne. rewrite (K Hne). apply (termAt_pre (length lt)); [|lia].
      apply pre_app_r, pre_refl; lia.
Qed.

(** Two logs that carry the same term at an index agree up to it. *)
Lemma logs_agree : forall gh l1 l2 i,
  (forall j e, nth_error l1 j = Some e -> pre (S j) l1 (tl gh (e_term e))) ->
  (forall j e, nth_error l2 j = Some e -> pre (S j) l2 (tl gh (e_term e))) ->
  i <= lcp (terms l1) (terms l2) -> pre i l1 l2.
Proof.
  intros gh l1 l2 [|i] H1 H2 L; [unfold pre; simpl; repeat split; lia|].
  pose proof (lcp_le_l (terms l1) (terms l2)) as A. pose proof (lcp_le_r (terms l1) (terms l2)) as B.
  rewrite terms_length in *.
  destruct (nth_some _ l1 i) as [e1 E1]; [lia|]. destruct (nth_some _ l2 i) as [e2 E2]; [lia|].
  pose proof (pre_nth _ i _ _ (lcp_pre (terms l1) (terms l2)) ltac:(lia)) as E.
  rewrite (terms_nth _ _ _ E1), (terms_nth _ _ _ E2) in E. injection E as E.
  eapply pre_trans; [apply H1; eauto|]. rewrite E. apply pre_sym, H2; auto.
Qed.

Lemma nodeL_logs : forall gh k nd, nodeL gh k nd ->
  forall j e, nth_error (nlog nd) j = Some e -> pre (S j) (nlog nd) (tl gh (e_term e)).
Proof. intros gh k nd H j e He. apply (nl_log _ _ _ H); auto. Qed.
Lemma ghostL_logs : forall gh T, ghostL gh ->
  forall j e, nth_error (tl gh T) j = Some e -> pre (S j) (tl gh T) (tl gh (e_term e)).
Proof. intros gh T H j e He. apply (gl_log _ H); auto. Qed.

(** An AppendEntries' common prefix with our log is real. *)
Lemma ae_common : forall f gh k nd from to T lt prev pt es lci mc,
  nodeL gh k nd -> ghostL gh -> msgL f gh (AppendEntries from to T lt prev pt es lci mc) ->
  pre (lcp lt (terms (nlog nd))) (nlog nd) (tl gh T).
Proof.
  intros f gh k nd from to T lt prev pt es lci mc HN HG HM. simpl in HM.
  destruct HM as (A & B & C & D & F & G & _).
  apply (logs_agree gh).
  - eapply nodeL_logs; eauto.
  - apply ghostL_logs; auto.
  - apply lcp_max. rewrite F. apply pre_sym.
    eapply pre_trans; [|apply lcp_pre].
    rewrite terms_firstn. apply pre_sym.
    apply pre_firstn_l; [apply pre_refl|].
    + rewrite terms_length.
      pose proof (lcp_le_l (firstn (length lt) (terms (tl gh T))) (terms (nlog nd))) as L.
      rewrite firstn_length, terms_length in L. lia.
    + pose proof (lcp_le_l (firstn (length lt) (terms (tl gh T))) (terms (nlog nd))) as L.
      rewrite firstn_length in L. lia.
Qed.

(** At most one leader per term. *)
Lemma lead_unique : forall f net gh k vs,
  InvL f net gh -> nrole (f k) = Candidate -> m_votes (n_mem (f k)) = vs ->
  length cfg < 2 * (1 + countVotes true vs) ->
  (exists Q, majority cfg Q /\ In k Q /\ forall v, In v Q -> v <> k -> In (v, true) vs) /\ ld gh (mt (f k)) = None.
Proof.
  intros f net gh k vs (HN & HG & HM) Hr Hv Hq.
  destruct (nl_cand _ _ _ (HN k) Hr) as (A & B & C & D & E). rewrite Hv in *.
  set (Q := k :: map fst (filter (fun x => Bool.eqb (snd x) true) vs)).
  assert (HQin : forall v, In v (map fst (filter (fun x => Bool.eqb (snd x) true) vs)) -> In (v, true) vs).
  { intros v Hin. apply in_map_iff in Hin. destruct Hin as ((w & b) & Hw & Hin). simpl in Hw; subst w.
    apply filter_In in Hin. destruct Hin as (Hin & Hb). simpl in Hb. destruct b; [auto|discriminate]. }
  assert (HQ : majority cfg Q).
  { split; [|split].
    - constructor.
      + intros Hin. apply HQin in Hin. destruct (E k Hin); congruence.
      + clear -D. induction vs as [|(w, b) vs IH]; simpl in *; [constructor|].
        inversion D; subst. destruct b; simpl; auto. constructor; auto.
        intros Hin. apply H1. apply in_map_iff in Hin. destruct Hin as (y & Hy & Hin).
        apply filter_In in Hin. apply in_map_iff. exists y; tauto.
    - intros v [<-|Hin]; auto. apply HQin in Hin. apply E; auto.
    - unfold Q. simpl length. rewrite map_length. unfold countVotes in Hq. lia. }
  split.
  - exists Q. split; auto. split; [left; auto|]. intros v [<-|Hin] Hne; [congruence|auto].
  - destruct (ld gh (mt (f k))) as [p|] eqn:El; auto. exfalso.
    destruct (gl_maj _ HG _ _ El) as (Q' & HQ' & Hgv).
    destruct (majorities_meet cfg Q Q' HQ HQ') as (v & H1 & H2).
    assert (Hp : p = (k, ninc (f k))).
    { specialize (Hgv v H2). destruct H1 as [<-|Hin].
      - destruct (nl_gv _ _ _ (HN k) _ _ Hgv) as [L|(L & Hd)].
        + pose proof (nl_le _ _ _ (HN k)). lia.
        + rewrite (nl_vote _ _ _ (HN k)) in Hd by lia. congruence.
      - apply HQin in Hin. destruct (E v Hin) as (_ & _ & Hg). congruence. }
    subst p. destruct (nl_ld _ _ _ (HN k) _ _ El) as [L|(_ & [L|(_ & L)])]; try lia. congruence.
Qed.

(** The vote a node is about to make durable cannot differ from one it has
    already made durable in the same term. *)
Lemma gv_fresh : forall gh k nd p, nodeL gh k nd -> gv gh k (mt nd) = Some p -> mv nd = Some p /\ dt nd = mt nd.
Proof.
  intros gh k nd p H Hg. pose proof (nl_le _ _ _ H). destruct (nl_gv _ _ _ H _ _ Hg) as [L|(L & Hd)]; [lia|].
  split; auto. rewrite <- (nl_vote _ _ _ H); auto.
Qed.

Lemma gext_vote : forall gh n t v,
  (forall p, gv gh n t = Some p -> v = Some p) -> gext n gh (ghVote gh n t v).
Proof.
  intros gh n t [v|] H; simpl; [|apply gext_refl]. constructor; simpl; auto.
  - intros k T p Hp. destruct (Nat.eq_dec k n) as [->|]; [destruct (Nat.eq_dec T t) as [->|]|].
    + rewrite upd2_same. auto.
    + rewrite upd2_other; auto.
    + rewrite upd2_other; auto.
  - intros. apply upd2_other; auto.
  - intros; exists []; rewrite app_nil_r; auto.
Qed.

Lemma ghostL_vote : forall gh n t v,
  (forall p, gv gh n t = Some p -> v = Some p) -> ghostL gh -> ghostL (ghVote gh n t v).
Proof.
  intros gh n t v Hv H. pose proof (gext_vote gh n t v Hv) as E. destruct v as [v|]; [|exact H].
  destruct H. constructor; auto; simpl.
  intros T p Hp. destruct (gl_maj0 T p Hp) as (Q & HQ & Hg). exists Q; split; auto.
  intros w Hw. apply (ge_gv _ _ _ E). auto.
Qed.
Lemma ld_ghVote : forall gh n t v, ld (ghVote gh n t v) = ld gh.
Proof. intros gh n t [v|]; auto. Qed.
Lemma tl_ghVote : forall gh n t v, tl (ghVote gh n t v) = tl gh.
Proof. intros gh n t [v|]; auto. Qed.
Lemma acc_ghVote : forall gh n t v, acc (ghVote gh n t v) = acc gh.
Proof. intros gh n t [v|]; auto. Qed.
End invL.
