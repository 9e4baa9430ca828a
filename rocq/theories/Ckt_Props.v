(** * Circuits: the properties *)

From Coq Require Import ZArith List Bool Arith Lia.
From Verif Require Import Ckt_Model Ckt_Spec Ckt_View Ckt_Proofs Ckt_Proofs2 Ckt_Proofs3 Ckt_Proofs4 Ckt_Proofs5 Ckt_Proofs6.
Import ListNotations.

(** ** From items to fragments *)

Fixpoint somes (l : list item) : list Z :=
  match l with [] => [] | Some d :: r => d :: somes r | None :: r => somes r end.

Lemma somes_app : forall a b, somes (a ++ b) = somes a ++ somes b.
Proof. induction a as [|[d|] a IH]; intro b; cbn; rewrite ?IH; reflexivity. Qed.
Lemma somes_map : forall l, somes (map Some l) = l.
Proof. induction l as [|d l IH]; cbn; rewrite ?IH; reflexivity. Qed.
Lemma somes_sub : forall a b, subseq a b -> subseq (somes a) (somes b).
Proof.
  intros a b H. induction H as [l|x a b H IH|x a b H IH]; [constructor| |]; destruct x; cbn; try constructor; exact IH.
Qed.

Lemma sent_somes : forall c x k h, sent c x k h = somes (sentI c x k h).
Proof.
  intros c x k h. induction h as [|e h IH]; [reflexivity|]. destruct e; cbn; auto.
  - destruct (_ && _); [|exact IH]. rewrite somes_app, IH. reflexivity.
  - destruct (_ && _); [|exact IH]. rewrite somes_app, IH. cbn. rewrite app_nil_r. reflexivity.
Qed.

Lemma fin_item : forall c x h, In None (sentI c x false h) <-> existsb (isFin c x) h = true.
Proof.
  intros c x h. induction h as [|e h IH]; [cbn; split; [intros []|discriminate]|].
  destruct e; cbn [sentI existsb isFin]; rewrite ?orb_false_l; auto.
  - destruct (_ && _); [|exact IH]. rewrite in_app_iff. cbn. rewrite IH. intuition discriminate.
  - destruct (same c c0 x x0); cbn [andb negb orb]; [|exact IH]. rewrite in_app_iff. cbn. intuition.
Qed.

Lemma before_end : forall c x h a t, sentI c x false h = map Some a ++ None :: t -> sentBeforeEnd c x h = a.
Proof.
  intros c x h. induction h as [|e h IH]; intros a t H; [destruct a; discriminate|].
  cbn [sentBeforeEnd]. destruct (existsb (isFin c x) h) eqn:F.
  - assert (P : exists t', sentI c x false h = map Some a ++ None :: t'); [|destruct P as [t' P]; apply (IH a t' P)].
    apply fin_item in F. apply in_split in F as (u & v & F).
    assert (X : exists w, sentI c x false (e :: h) = sentI c x false h ++ w).
    { destruct e; cbn [sentI]; try (exists []; rewrite app_nil_r; reflexivity);
        (destruct (_ && _); [eexists; reflexivity|exists []; rewrite app_nil_r; reflexivity]). }
    destruct X as [w X]. rewrite X in H. clear X IH.
    (* the first None of the longer list is in the shorter one *)
    rewrite F in H |- *. clear F. revert a H. induction u as [|i u IHu]; intros a H.
    + destruct a as [|d a]; [|discriminate]. exists v. reflexivity.
    + destruct a as [|d a]; cbn in H.
      * injection H as -> H. cbn. eexists. reflexivity.
      * injection H as -> H. destruct (IHu a H) as [t' E]. exists t'. cbn. rewrite E. reflexivity.
  - rewrite sent_somes, H, somes_app, somes_map. cbn [somes].
    assert (T : t = []).
    { assert (F' : ~ In None (sentI c x false h)) by (intro Q; apply fin_item in Q; congruence).
      destruct e; cbn [sentI] in H; try (exfalso; apply F'; rewrite H; apply in_or_app; right; left; reflexivity).
      - destruct (_ && _); [|exfalso; apply F'; rewrite H; apply in_or_app; right; left; reflexivity].
        destruct (exists_last (l := None :: t)) as (t0 & z & Z); [discriminate|]. rewrite Z, app_assoc in H.
        apply app_inj_tail in H as [H <-]. exfalso.
        destruct t0 as [|y t0]; [discriminate|]. cbn in Z. injection Z as <- _.
        apply F'. rewrite H. apply in_or_app. right. left. reflexivity.
      - destruct (_ && _); [|exfalso; apply F'; rewrite H; apply in_or_app; right; left; reflexivity].
        destruct t as [|y t]; [reflexivity|]. exfalso.
        destruct (exists_last (l := y :: t)) as (t0 & z & Z); [discriminate|]. rewrite Z in H.
        change (None :: t0 ++ [z]) with ((None :: t0) ++ [z]) in H. rewrite app_assoc in H.
        apply app_inj_tail in H as [H _]. apply F'. rewrite H. apply in_or_app. right. left. reflexivity. }
    rewrite T. cbn. apply app_nil_r.
Qed.

(** the view at a quiet moment. *)
Lemma quiet_view : forall s c x k, quiet s ->
  vD (view s c x k) = [] /\ vR (view s c x k) = [] /\ vB (view s c x k) = [] /\ vW (view s c x k) = [].
Proof.
  intros s c x k (W1 & W2 & B1 & B2 & _ & P). unfold view. cbn [vD vR vB vW].
  set (p := peerOf x (getC c s)). destruct (P p) as (R1 & R2 & Q).
  assert (W : wire (pSide (getP p s)) s = []) by (unfold wire; destruct (pSide _); assumption).
  assert (B : boot (pSide (getP p s)) s = None) by (unfold boot; destruct (pSide _); assumption).
  rewrite W, B. repeat split.
  - destruct Q as [Q|Q]; rewrite Q; reflexivity.
  - destruct k; cbn [inQ]; rewrite ?R1, ?R2; reflexivity.
Qed.

(** ** Examples of runs *)

Definition quietb (s : state) : bool :=
  match wireT s, wireF s, bootT s, bootF s, bg s with
  | [], [], None, None, [] =>
      forallb (fun a => match pReads a, pErrs a, pPump a with [], [], Idle | [], [], Gone => true | _, _, _ => false end) (peers s)
  | _, _, _, _, _ => false
  end.

Lemma quietb_ok : forall s, quietb s = true -> quiet s.
Proof.
  intros s H. unfold quietb in H. unfold quiet.
  destruct (wireT s), (wireF s), (bootT s), (bootF s), (bg s); try discriminate.
  repeat (split; [reflexivity|]). intro p. rewrite forallb_forall in H.
  unfold getP. destruct (Nat.lt_ge_cases p (length (peers s))) as [L|L].
  - specialize (H _ (nth_In _ noPeer L)). destruct (pReads _), (pErrs _), (pPump _); try discriminate; auto.
  - rewrite nth_overflow by exact L. cbn. auto.
Qed.

Definition gapb (c : nat) (x : bool) (s : state) : bool := existsb (isGap c x) (hist s).
Lemma gapb_ok : forall c x s, gapb c x s = false -> ~ In (EGap c x) (hist s).
Proof.
  intros c x s H Q. unfold gapb in H. assert (T : existsb (isGap c x) (hist s) = true); [|congruence].
  apply existsb_exists. exists (EGap c x). split; [exact Q|]. cbn. apply same_refl.
Qed.
Lemma gap_iff : forall c x s, existsb (isGap c x) (hist s) = false <-> ~ In (EGap c x) (hist s).
Proof.
  intros c x s. split; [apply gapb_ok|]. intro H. destruct (existsb (isGap c x) (hist s)) eqn:Q; [|reflexivity].
  apply existsb_exists in Q as [e [I1 I2]]. destruct e; try discriminate. cbn in I2. apply same_spec in I2 as [-> ->]. contradiction.
Qed.

Definition downb (s : state) : bool := existsb (fun e => match e with EDown => true | _ => false end) (hist s).
Lemma downb_ok : forall s, downb s = false -> ~ In EDown (hist s).
Proof.
  intros s H Q. unfold downb in H. assert (T : existsb (fun e => match e with EDown => true | _ => false end) (hist s) = true); [|congruence].
  apply existsb_exists. exists EDown. split; [exact Q|reflexivity].
Qed.
Lemma closedb_ok : forall c x s, closedN c x (hist s) = 0 -> forall p b, ~ In (EClosed p c x b) (hist s).
Proof. intros c x s H p b Q. apply closedN_in in Q. congruence. Qed.

Definition two : list (bool * bool) := [(true, false); (false, false)].
(** circuit c from peer p to peer q, with first fragment d. *)
Definition opening (c p q : nat) (d : Z) : list op :=
  [OOpen p q true; OTell c; OStart c d; RBoot false; RFirst false true].
(** a fragment from the asking end, up to the other peer's channel. *)
Definition sending (c : nat) (d : Z) : list op := [OSend c true false d; OPut 0; RMsg false].
Definition taking (q : nat) : list op := [PRead q false; PPut q false].

(** ** C69: order and completeness *)

(** what a user takes from a circuit is what the other end sent, in that
    order, at most with some left out. *)
Theorem C69_in_order : forall cap cfg os c x k,
  let s := run cap cfg os in
  subseq (recv c x k (hist s)) (sent c (negb x) k (hist s)).
Proof.
  intros cap cfg os c x k s. destruct (run_all cap cfg os) as (S & V & E). fold s in S, V, E.
  pose proof (viSub _ (V c x k)) as H. apply somes_sub in H.
  rewrite sent_somes. unfold view in H. cbn [vF vSent] in H.
  apply (sub_trans _ _ _ H). rewrite somes_app, somes_map, <- app_assoc.
  rewrite <- (app_nil_r (recv c x k (hist s))) at 1. apply sub_app; [apply sub_refl|constructor].
Qed.

(** no fragment is left out in the middle, unless one was given up (EGap). *)
Theorem C69_no_gap_partial : forall cap cfg os c x k,
  let s := run cap cfg os in
  ~ In (EGap c x) (hist s) ->
  exists rest, sent c (negb x) k (hist s) = recv c x k (hist s) ++ rest.
Proof.
  intros cap cfg os c x k s NG. destruct (run_all cap cfg os) as (S & V & E). fold s in S, V, E.
  apply gap_iff in NG. pose proof (V c x k) as VI.
  assert (X : exists t, sentI c (negb x) k (hist s) = map Some (recv c x k (hist s) ++ queue k (endOf x (getC c s))) ++ t).
  { destruct (eCanc (endOf x (getC c s))) eqn:CN.
    - destruct (viCut _ VI NG CN) as [t H]. eexists. exact H.
    - destruct (viOpen _ VI NG CN) as (t & H & _). eexists. exact H. }
  destruct X as [t X]. rewrite sent_somes, X, somes_app, somes_map, <- app_assoc. eexists. reflexivity.
Qed.

(** as long as nothing was given up, the connection stayed up and this end was
    not closed, everything the other end sent was taken or waits to be taken,
    once nothing is under way. *)
Theorem C69_nothing_lost_partial : forall cap cfg os c x k,
  let s := run cap cfg os in
  ~ In (EGap c x) (hist s) -> ~ In EDown (hist s) -> (forall p b, ~ In (EClosed p c x b) (hist s)) ->
  quiet s ->
  sent c (negb x) k (hist s) = recv c x k (hist s) ++ queue k (endOf x (getC c s)).
Proof.
  intros cap cfg os c x k s NG ND NC Q. destruct (run_all cap cfg os) as (S & V & E). fold s in S, V, E.
  apply gap_iff in NG.
  assert (CN : eCanc (endOf x (getC c s)) = false).
  { destruct (eCanc (endOf x (getC c s))) eqn:CN; [|reflexivity]. exfalso.
    pose proof (nClosed _ E c x) as N. rewrite CN in N.
    destruct (in_closedN c x (hist s)) as (p & b & H); [congruence|]. exact (NC p b H). }
  assert (U : connUp s = true).
  { destruct (connUp s) eqn:U; [reflexivity|]. exfalso. apply ND. apply (nDown _ E U). }
  destruct (viOpen _ (V c x k) NG CN) as (t & H & T). specialize (T U). subst t.
  destruct (quiet_view s c x k Q) as (Q1 & Q2 & Q3 & Q4). rewrite Q1, Q2, Q3, Q4 in H. cbn [app] in H.
  rewrite app_nil_r in H. rewrite sent_somes. unfold view in H. cbn [vSent vF] in H. rewrite H, somes_map. reflexivity.
Qed.

Definition good_ops : list op :=
  opening 0 0 1 5%Z ++ [ORecv 0 false false] ++ sending 0 7%Z ++ taking 1 ++ sending 0 8%Z ++ taking 1 ++ [ORecv 0 false false]
  ++ [OSend 0 true true 3%Z; OPut 0; RMsg false; PErr 1; PPut 1 false; ORecv 0 false true].

Example C69_in_order_ex :
  recv 0 false false (hist (run 2 two good_ops)) = [5; 7]%Z /\
  sent 0 true false (hist (run 2 two good_ops)) = [5; 7; 8]%Z /\
  recv 0 false true (hist (run 2 two good_ops)) = [3]%Z.
Proof. vm_compute. auto. Qed.

Example C69_no_gap_partial_ex : ~ In (EGap 0 false) (hist (run 2 two good_ops)).
Proof. apply gapb_ok. vm_compute. reflexivity. Qed.

Example C69_nothing_lost_partial_ex :
  ~ In EDown (hist (run 2 two good_ops)) /\ (forall p b, ~ In (EClosed p 0 false b) (hist (run 2 two good_ops))) /\
  quiet (run 2 two good_ops) /\ queue false (endOf false (getC 0 (run 2 two good_ops))) = [8]%Z.
Proof.
  split; [apply downb_ok; vm_compute; reflexivity|]. split; [apply closedb_ok; vm_compute; reflexivity|].
  split; [apply quietb_ok; vm_compute; reflexivity|vm_compute; reflexivity].
Qed.

(** in full it is false: a fragment that finds the peer's channel full for five
    seconds is dropped by the read loop, and the ones after it are delivered. *)
Definition drop_ops : list op :=
  opening 0 0 1 5%Z ++ [ORecv 0 false false] ++ sending 0 7%Z ++ [OSend 0 true false 8%Z; OPut 0; RDrop false]
  ++ taking 1 ++ [ORecv 0 false false] ++ sending 0 9%Z ++ taking 1 ++ [ORecv 0 false false].

Theorem C69_full_channel_refuted : exists cap cfg os,
  let s := run cap cfg os in
  0 < cap /\ quiet s /\ ~ In EDown (hist s) /\ (forall x p b, ~ In (EClosed p 0 x b) (hist s)) /\
  sent 0 true false (hist s) = [5; 7; 8; 9]%Z /\ recv 0 false false (hist s) = [5; 7; 9]%Z.
Proof.
  exists 1, two, drop_ops. split; [lia|]. split; [apply quietb_ok; vm_compute; reflexivity|].
  split; [apply downb_ok; vm_compute; reflexivity|].
  split; [intro x; apply closedb_ok; destruct x; vm_compute; reflexivity|]. vm_compute. auto.
Qed.

(** closing one circuit makes the pump drop a fragment of another one. *)
Definition five_ops : list op :=
  opening 0 0 1 5%Z ++ opening 1 0 1 6%Z ++ sending 0 7%Z
  ++ [PRead 1 false; OClose 1 false None; PClose 1 0 false; PFive 1 false; ORecv 0 false false]
  ++ [RMsg true; PRead 0 false] ++ sending 0 8%Z ++ taking 1 ++ [ORecv 0 false false].

Theorem C69_other_closed_refuted : exists cap cfg os,
  let s := run cap cfg os in
  0 < cap /\ quiet s /\ ~ In EDown (hist s) /\ (forall x p b, ~ In (EClosed p 0 x b) (hist s)) /\
  sent 0 true false (hist s) = [5; 7; 8]%Z /\ recv 0 false false (hist s) = [5; 8]%Z.
Proof.
  exists 1, two, five_ops. split; [lia|]. split; [apply quietb_ok; vm_compute; reflexivity|].
  split; [apply downb_ok; vm_compute; reflexivity|].
  split; [intro x; apply closedb_ok; destruct x; vm_compute; reflexivity|]. vm_compute. auto.
Qed.

(** a circuit made by starting a remote peer is told to the pump after the
    request: an answer that comes first is lost. *)
Definition late_ops : list op :=
  [OOpen 0 1 false; OStart 0 5%Z; RBoot false; RFirst false true; ORecv 0 false false;
   OSend 0 false false 7%Z; OPut 0; RMsg true; PRead 0 false; OTell 0;
   OSend 0 false false 8%Z; OPut 0; RMsg true; PRead 0 false; PPut 0 false; ORecv 0 true false].

Theorem C69_early_answer_refuted : exists cap cfg os,
  let s := run cap cfg os in
  0 < cap /\ quiet s /\ ~ In EDown (hist s) /\ (forall x p b, ~ In (EClosed p 0 x b) (hist s)) /\
  sent 0 false false (hist s) = [7; 8]%Z /\ recv 0 true false (hist s) = [8]%Z.
Proof.
  exists 4, two, late_ops. split; [lia|]. split; [apply quietb_ok; vm_compute; reflexivity|].
  split; [apply downb_ok; vm_compute; reflexivity|].
  split; [intro x; apply closedb_ok; destruct x; vm_compute; reflexivity|]. vm_compute. auto.
Qed.

(** ** C70: the end of a circuit *)

(** an end closed because the other end said so has got all that was sent before. *)
Theorem C70_after_data_partial : forall cap cfg os p c x,
  let s := run cap cfg os in
  In (EClosed p c x true) (hist s) -> ~ In (EGap c x) (hist s) ->
  recv c x false (hist s) ++ queue false (endOf x (getC c s)) = sentBeforeEnd c (negb x) (hist s).
Proof.
  intros cap cfg os p c x s H NG. destruct (run_all cap cfg os) as (S & V & E). fold s in S, V, E.
  apply gap_iff in NG.
  assert (EN : vEnded (view s c x false) = true).
  { unfold view. cbn [vEnded negb andb]. apply existsb_exists. exists (EClosed p c x true). split; [exact H|]. cbn. apply same_refl. }
  destruct (viEnded _ (V c x false) NG EN) as [_ [t T]]. unfold view in T. cbn [vSent vF] in T.
  symmetry. apply (before_end c (negb x) (hist s) _ t T).
Qed.

Definition end_ops : list op :=
  opening 0 0 1 5%Z ++ sending 0 7%Z ++ [OClose 0 true None; PClose 0 0 false; RMsg false]
  ++ taking 1 ++ [PRead 1 false; ORecv 0 false false].

Example C70_after_data_partial_ex :
  In (EClosed 1 0 false true) (hist (run 3 two end_ops)) /\ ~ In (EGap 0 false) (hist (run 3 two end_ops)) /\
  recv 0 false false (hist (run 3 two end_ops)) = [5]%Z /\
  queue false (endOf false (getC 0 (run 3 two end_ops))) = [7]%Z /\
  sentBeforeEnd 0 true (hist (run 3 two end_ops)) = [5; 7]%Z.
Proof.
  split; [vm_compute; auto 20|]. split; [apply gapb_ok; vm_compute; reflexivity|]. vm_compute. auto.
Qed.

(** *** being told *)

Definition keepR (c : nat) (x : bool) (s s' : state) : Prop :=
  eReason (endOf x (getC c s)) = None -> eReason (endOf x (getC c s')) = None.

Lemma kr_trans : forall c x a b d, keepR c x a b -> keepR c x b d -> keepR c x a d.
Proof. unfold keepR. auto. Qed.
Lemma kr_same : forall c x s s', (forall c', getC c' s' = getC c' s) -> keepR c x s s'.
Proof. intros c x s s' H. unfold keepR. rewrite H. auto. Qed.
Lemma kr_setEnd : forall c x c0 x0 f s, (forall e, eReason e = None -> eReason (f e) = None) ->
  keepR c x s (updC c0 (setEnd x0 f) s).
Proof.
  intros c x c0 x0 f s H. unfold keepR. intro Q. rewrite getC_updC. destruct (_ && _); [|exact Q].
  rewrite endOf_setEnd. destruct (Bool.eqb x x0); auto.
Qed.
Lemma kr_cleanup : forall c x p n b c0 s, keepR c x s (cleanup p n b c0 s).
Proof.
  intros c x p n b c0 s. destruct (memN c0 (pMap (getP p s))) eqn:MM.
  - apply memN_in in MM. rewrite (cleanup_eq p n b c0 s MM). set (y := endAt p (getC c0 s)). set (r := eReason _). clearbody y r.
    apply (kr_trans _ _ _ (cutS p c0 y s)).
    + unfold cutS. eapply kr_trans; [|apply kr_setEnd; auto]. apply kr_same. reflexivity.
    + apply kr_same. intro c'. unfold tellOther. destruct (n && _); [destruct b|]; reflexivity.
  - unfold cleanup. rewrite MM. apply kr_same. reflexivity.
Qed.
Lemma kr_cleanups : forall c x p b cs s, keepR c x s (cleanups p b cs s).
Proof.
  intros c x p b cs. induction cs as [|c0 cs IH]; intro s; cbn [cleanups]; [apply kr_same; reflexivity|].
  eapply kr_trans; [apply kr_cleanup|apply IH].
Qed.

Lemma step_keepR : forall cap s o c x, (forall r, o <> OClose c x (Some r)) -> keepR c x s (step cap s o).
Proof.
  intros cap s o c x NO. assert (RF : keepR c x s s) by (apply kr_same; reflexivity). destruct o; cbn [step].
  - unfold openC. destruct (_ && _ && _ && _); [|exact RF]. unfold keepR, getC. intro H. cbn [setCkts ckts].
    destruct (Nat.lt_ge_cases c (length (ckts s))) as [L|L]; [rewrite app_nth1 by exact L; exact H|].
    rewrite app_nth2 by exact L. destruct (c - length (ckts s)) as [|[|n]]; destruct x; reflexivity.
  - unfold tellC. destruct (_ && _ && _ && _); [|exact RF]. eapply kr_trans; [|apply kr_same; reflexivity]. apply kr_setEnd. auto.
  - unfold startC. destruct (_ && _ && _ && _ && _); [|exact RF].
    eapply kr_trans with (b := updC c0 setStarted s); [|apply kr_same; reflexivity].
    unfold keepR. intro H. rewrite getC_updC. destruct (_ && _); [|exact H]. destruct x; exact H.
  - unfold sendC. destruct (_ && _ && _); [|exact RF]. apply kr_same. reflexivity.
  - unfold putC. destruct (nth_error _ i) as [[[[c1 x1] k1] d1]|]; [|exact RF]. destruct (connUp s); apply kr_same; reflexivity.
  - unfold recvC. destruct (given _ _ _); [|exact RF]. destruct (queue _ _); [exact RF|].
    eapply kr_trans; [|apply kr_same; reflexivity]. apply kr_setEnd. intros e H. destruct k; exact H.
  - unfold closeC. destruct (given _ _ _); [|exact RF].
    assert (K : keepR c x s (updC c0 (setEnd x0 (setHalt r)) s)).
    { destruct r as [r|].
      - unfold keepR. intro H. rewrite getC_updC. destruct ((c =? c0) && _) eqn:Q; [|exact H].
        apply andb_true_iff in Q as [Q _]. apply Nat.eqb_eq in Q. subst c0. rewrite endOf_setEnd.
        destruct (Bool.eqb x x0) eqn:QX; [|exact H]. apply eqb_prop in QX. subst x0. exfalso. apply (NO r). reflexivity.
      - apply kr_setEnd. intros e H. cbn. destruct (eHalt e); auto. }
    destruct (pUp _); [|exact K]. eapply kr_trans; [exact K|apply kr_same; reflexivity].
  - apply kr_same. reflexivity.
  - apply kr_same. reflexivity.
  - unfold bgPut. destruct (nth_error _ i) as [[[c1 x1] r]|]; [|exact RF]. apply kr_same. intro. destruct r; reflexivity.
  - unfold bgQuit. destruct (nth_error _ i) as [[[c1 x1] r]|]; [|exact RF]. apply kr_same. reflexivity.
  - unfold bootC. destruct (boot t s); [exact RF|]. destruct (wire t s) as [|m r]; [exact RF|]. destruct (mTyp m); try exact RF.
    destruct (negb _); [apply kr_same; reflexivity|]. destruct (takesNew _); [|exact RF].
    eapply kr_trans with (b := updC (mCid m) (setEnd false (fun _ => mkEnd true true [] [] false None false)) s); [|apply kr_same; reflexivity].
    apply kr_setEnd. auto.
  - unfold firstC. destruct (boot t s) as [[c1 d]|]; [|exact RF]. destruct took.
    + destruct (_ <? cap); [|exact RF]. eapply kr_trans; [|apply kr_same; reflexivity]. apply kr_setEnd. auto.
    + destruct (eHalt _); [|exact RF]. apply kr_same. reflexivity.
  - unfold msgC. destruct (boot t s); [exact RF|]. destruct (wire t s) as [|m r]; [exact RF|].
    destruct (mTyp m); try exact RF; (destruct (_ <? cap); [|exact RF]); apply kr_same; reflexivity.
  - unfold dropC. destruct (boot t s); [exact RF|]. destruct (wire t s) as [|m r]; [exact RF|].
    destruct (mTyp m); try exact RF; (destruct (_ <? cap); [exact RF|]); apply kr_same; reflexivity.
  - unfold pClose. destruct (nth_error _ i); [|exact RF]. destruct (pPump _); try exact RF;
      first [eapply kr_trans; [|apply kr_cleanup]; apply kr_same; reflexivity | apply kr_same; reflexivity].
  - unfold pRead. destruct (pPump _); try exact RF. destruct (pReads _) as [|m r]; [exact RF|]. destruct (memN _ _).
    + destruct (mTyp m); try (apply kr_same; reflexivity). eapply kr_trans; [|apply kr_cleanup]. apply kr_same. reflexivity.
    + destruct (eCanc _); apply kr_same; reflexivity.
  - unfold pErr. destruct (pPump _); try exact RF. destruct (pErrs _) as [|m r]; [exact RF|]. destruct (memN _ _); [|destruct (eCanc _)];
      apply kr_same; reflexivity.
  - unfold pPut. destruct (pPump _) as [|c1 d late|c1 d|]; try exact RF.
    + destruct (_ <? cap); [|exact RF]. eapply kr_trans; [|apply kr_cleanups].
      eapply kr_trans; [|apply kr_same; reflexivity]. apply kr_setEnd. auto.
    + destruct (_ <? cap); [|exact RF]. eapply kr_trans; [|apply kr_same; reflexivity]. apply kr_setEnd. auto.
  - unfold pTwo. destruct (pPump _) as [|c1 d late|c1 d|]; try exact RF. destruct (_ <? cap); [exact RF|].
    eapply kr_trans; [|apply kr_cleanups]. apply kr_same. reflexivity.
  - unfold pFive. destruct (pPump _) as [|c1 d late|c1 d|]; try exact RF. destruct late; [exact RF|]. destruct (_ <? cap); [exact RF|].
    eapply kr_trans; [|apply kr_cleanups]. apply kr_same. reflexivity.
  - unfold pHalted. destruct (pPump _) as [|c1 d late|c1 d|]; try exact RF; (destruct (eHalt _); [|exact RF]);
      (eapply kr_trans; [|apply kr_cleanups]; apply kr_same; reflexivity).
  - unfold pExit. destruct (pPump _); try exact RF; (destruct (pUp _); [exact RF|]);
      (eapply kr_trans; [|apply kr_cleanups]; apply kr_same; reflexivity).
Qed.

Lemma run_noReason : forall cap cfg os c x, (forall r, ~ In (OClose c x (Some r)) os) ->
  eReason (endOf x (getC c (run cap cfg os))) = None.
Proof.
  intros cap cfg os c x H. unfold run.
  assert (G : forall os s, (forall r, ~ In (OClose c x (Some r)) os) -> eReason (endOf x (getC c s)) = None ->
    eReason (endOf x (getC c (fold_left (step cap) os s))) = None).
  { clear. induction os as [|o os IH]; intros s H K; [exact K|]. cbn [fold_left]. apply IH.
    - intros r Q. apply (H r). right. exact Q.
    - apply (step_keepR cap s o c x); [|exact K]. intros r Q. apply (H r). left. exact Q. }
  apply G; [exact H|]. rewrite getC_init. destruct x; reflexivity.
Qed.

(** an end that was closed, by its user without a reason or by its peer, tells
    the other end, which closes too - unless the connection was lost, the notice
    was given up after five seconds or something for the other end was dropped. *)
Theorem C70_told_partial : forall cap cfg os p c x,
  let s := run cap cfg os in
  In (EClosed p c x false) (hist s) -> (forall r, ~ In (OClose c x (Some r)) os) ->
  ~ In EDown (hist s) -> ~ In (EFinLost c x) (hist s) -> ~ In (EGap c (negb x)) (hist s) ->
  quiet s ->
  exists q b, In (EClosed q c (negb x) b) (hist s).
Proof.
  intros cap cfg os p c x s H NR ND NL NG Q. destruct (run_all cap cfg os) as (S & V & E). fold s in S, V, E.
  pose proof (run_noReason cap cfg os c x NR) as R. fold s in R.
  assert (F : In (EFin c x) (hist s)).
  { destruct (nFin _ E p c x H R) as [K|[K|[K|K]]]; [contradiction|exact K| |contradiction].
    destruct Q as (_ & _ & _ & _ & B & _). rewrite B in K. destruct K. }
  assert (U : connUp s = true).
  { destruct (connUp s) eqn:U; [reflexivity|]. exfalso. apply ND. apply (nDown _ E U). }
  apply gap_iff in NG.
  destruct (eCanc (endOf (negb x) (getC c s))) eqn:CN.
  - apply in_closedN. rewrite (nClosed _ E c (negb x)), CN. discriminate.
  - exfalso. destruct (viOpen _ (V c (negb x) false) NG CN) as (t & T & TU). specialize (TU U). subst t.
    destruct (quiet_view s c (negb x) false Q) as (Q1 & Q2 & Q3 & Q4). rewrite Q1, Q2, Q3, Q4 in T. cbn [app] in T.
    rewrite app_nil_r in T. unfold view in T. cbn [vSent vF] in T. rewrite negb_involutive in T.
    assert (N : In None (sentI c x false (hist s))).
    { apply fin_item. apply existsb_exists. exists (EFin c x). split; [exact F|]. cbn. apply same_refl. }
    rewrite T in N. apply in_map_iff in N as (d & D & _). discriminate.
Qed.

Definition finlostb (c : nat) (x : bool) (s : state) : bool :=
  existsb (fun e => match e with EFinLost c' x' => same c c' x x' | _ => false end) (hist s).
Lemma finlostb_ok : forall c x s, finlostb c x s = false -> ~ In (EFinLost c x) (hist s).
Proof.
  intros c x s H Q. unfold finlostb in H. assert (T : existsb (fun e => match e with EFinLost c' x' => same c c' x x' | _ => false end) (hist s) = true);
    [|congruence]. apply existsb_exists. exists (EFinLost c x). split; [exact Q|]. cbn. apply same_refl.
Qed.

Example C70_told_partial_ex :
  let s := run 3 two end_ops in
  In (EClosed 0 0 true false) (hist s) /\ (forall r, ~ In (OClose 0 true (Some r)) end_ops) /\
  ~ In EDown (hist s) /\ ~ In (EFinLost 0 true) (hist s) /\ ~ In (EGap 0 false) (hist s) /\ quiet s.
Proof.
  split; [vm_compute; auto 20|]. split.
  { intros r H. cbn in H. repeat (destruct H as [H|H]; [discriminate|]). exact H. }
  split; [apply downb_ok; vm_compute; reflexivity|]. split; [apply finlostb_ok; vm_compute; reflexivity|].
  split; [apply gapb_ok; vm_compute; reflexivity|]. apply quietb_ok; vm_compute; reflexivity.
Qed.

(** in full it is false: a Close with a reason reaches the other end as an error
    and does not close it. *)
Theorem C70_reason_refuted : exists cap cfg os,
  let s := run cap cfg os in
  0 < cap /\ quiet s /\ ~ In EDown (hist s) /\ ~ In (EFinLost 0 true) (hist s) /\ ~ In (EGap 0 false) (hist s) /\
  In (OClose 0 true (Some 3%Z)) os /\ In (EClosed 0 0 true false) (hist s) /\
  recv 0 false true (hist s) = [3]%Z /\ (forall q b, ~ In (EClosed q 0 false b) (hist s)).
Proof.
  exists 1, two, (opening 0 0 1 5%Z ++ [OClose 0 true (Some 3%Z); PClose 0 0 false; RMsg false; PErr 1; PPut 1 false; ORecv 0 false true]).
  split; [lia|]. split; [apply quietb_ok; vm_compute; reflexivity|]. split; [apply downb_ok; vm_compute; reflexivity|].
  split; [apply finlostb_ok; vm_compute; reflexivity|]. split; [apply gapb_ok; vm_compute; reflexivity|].
  split; [cbn; auto 10|]. split; [vm_compute; auto 20|]. split; [vm_compute; reflexivity|].
  apply closedb_ok; vm_compute; reflexivity.
Qed.

(** a request for a circuit with a peer that is stopping ends the connection, and
    with it the circuits of every other peer. *)
Definition stop_ops : list op :=
  opening 0 0 2 5%Z ++ [OHalt 1; OOpen 0 1 true; OTell 1; OStart 1 6%Z; OSend 0 true false 7%Z; OPut 0; RBoot false].

Theorem C70_connection_lost_refuted : exists cap cfg os,
  let s := run cap cfg os in
  ~ In ODown os /\ quiet s /\ connUp s = false /\ (forall x p b, ~ In (EClosed p 0 x b) (hist s)) /\
  sent 0 true false (hist s) = [5; 7]%Z /\
  recv 0 false false (hist s) ++ queue false (endOf false (getC 0 s)) = [5]%Z.
Proof.
  exists 4, [(true, false); (false, false); (false, false)], stop_ops.
  split.
  { intro H. cbn in H. repeat (destruct H as [H|H]; [discriminate|]). exact H. }
  split; [apply quietb_ok; vm_compute; reflexivity|]. split; [vm_compute; reflexivity|].
  split; [intro x; apply closedb_ok; destruct x; vm_compute; reflexivity|]. vm_compute. auto.
Qed.

(** ** C71: the accounts of a peer *)

Theorem C71_count : forall cap cfg os p,
  let s := run cap cfg os in
  tolds p (hist s) = openCount p s + closeds p (hist s).
Proof. intros cap cfg os p s. destruct (run_all cap cfg os) as (_ & _ & E). exact (nCount _ E p). Qed.

Example C71_count_ex :
  tolds 1 (hist (run 1 two five_ops)) = 2 /\ openCount 1 (run 1 two five_ops) = 1 /\ closeds 1 (hist (run 1 two five_ops)) = 1.
Proof. vm_compute. auto. Qed.

(** each end is closed at most once. *)
Theorem C71_closed_once : forall cap cfg os c x h1 h2 p q b b',
  hist (run cap cfg os) = h1 ++ EClosed p c x b :: h2 -> ~ In (EClosed q c x b') (h1 ++ h2).
Proof.
  intros cap cfg os c x h1 h2 p q b b' H K. destruct (run_all cap cfg os) as (_ & _ & E).
  pose proof (nClosed _ E c x) as N. rewrite H in N.
  assert (A : forall u v, closedN c x (u ++ v) = closedN c x u + closedN c x v).
  { induction u as [|e u IH]; intro v; [reflexivity|]. destruct e; cbn; auto. rewrite IH. lia. }
  rewrite A in N. cbn [closedN] in N. rewrite same_refl in N.
  apply closedN_in in K. rewrite A in K. destruct (eCanc _); lia.
Qed.

Example C71_closed_once_ex : exists h1 h2,
  hist (run 3 two end_ops) = h1 ++ EClosed 1 0 false true :: h2 /\ h1 <> [] /\ In (EClosed 0 0 true false) h2.
Proof.
  eexists. eexists. split; [|split].
  - vm_compute. instantiate (2 := [ERecv 0 false false 5%Z]). reflexivity.
  - discriminate.
  - vm_compute. auto 20.
Qed.

(** the circuits a peer has open are those it was told of and did not close. *)
Theorem C71_open_iff : forall cap cfg os p c,
  let s := run cap cfg os in
  In c (pMap (getP p s)) ->
  (p = kFrom (getC c s) \/ p = kTo (getC c s)) /\
  (forall q b, ~ In (EClosed q c (endAt p (getC c s)) b) (hist s)).
Proof.
  intros cap cfg os p c s H. destruct (run_all cap cfg os) as (S & _ & E). fold s in S, E.
  destruct (iMap _ S p c H) as (_ & _ & PE & _ & _ & CN). split; [exact PE|].
  intros q b K. rewrite (closed_canc s q c _ b E K) in CN. discriminate.
Qed.

Example C71_open_iff_ex : In 0 (pMap (getP 1 (run 1 two five_ops))).
Proof. vm_compute. auto. Qed.

(** *** AutoShutdownWhenNoMoreCircuits *)

Definition keepU (p : nat) (s s' : state) : Prop := pUp (getP p s') = pUp (getP p s).
Lemma ku_trans : forall p a b d, keepU p a b -> keepU p b d -> keepU p a d.
Proof. unfold keepU. intros. congruence. Qed.
Lemma ku_updP : forall p q f s, (forall a, pUp (f a) = pUp a) -> keepU p s (updP q f s).
Proof. intros p q f s H. unfold keepU. apply (fldP _ pUp). exact H. Qed.
Lemma ku_same : forall p s s', peers s' = peers s -> keepU p s s'.
Proof. intros p s s' H. unfold keepU, getP. rewrite H. reflexivity. Qed.
Lemma ku_cleanup : forall p q n b c0 s, keepU p s (cleanup q n b c0 s).
Proof.
  intros p q n b c0 s. destruct (memN c0 (pMap (getP q s))) eqn:MM.
  - apply memN_in in MM. rewrite (cleanup_eq q n b c0 s MM). set (y := endAt q (getC c0 s)). set (r := eReason _). clearbody y r.
    apply (ku_trans _ _ (cutS q c0 y s)).
    + unfold cutS. eapply ku_trans; [|apply ku_same; reflexivity]. apply ku_updP. reflexivity.
    + apply ku_same. unfold tellOther. destruct (n && _); [destruct b|]; reflexivity.
  - unfold cleanup. rewrite MM. apply ku_same. reflexivity.
Qed.
Lemma ku_cleanups : forall p q b cs s, keepU p s (cleanups q b cs s).
Proof.
  intros p q b cs. induction cs as [|c0 cs IH]; intro s; cbn [cleanups]; [apply ku_same; reflexivity|].
  eapply ku_trans; [apply ku_cleanup|apply IH].
Qed.

Ltac ku := first [ apply ku_same; reflexivity | apply ku_updP; reflexivity
  | eapply ku_trans; [|apply ku_cleanups]; ku | eapply ku_trans; [|apply ku_cleanup]; ku
  | eapply ku_trans; [|apply ku_updP; reflexivity]; ku
  | eapply ku_trans; [apply ku_updP; reflexivity|apply ku_same; reflexivity] ].

Lemma step_keepU : forall cap s o p, o <> OHalt p -> keepU p s (step cap s o).
Proof.
  intros cap s o p NO. assert (RF : keepU p s s) by (apply ku_same; reflexivity). destruct o; cbn [step].
  - unfold openC. destruct (_ && _ && _ && _); ku.
  - unfold tellC. destruct (_ && _ && _ && _); [|exact RF].
    eapply ku_trans; [|apply ku_same; reflexivity]. eapply ku_trans; [|apply ku_updP; reflexivity]. ku.
  - unfold startC. destruct (_ && _ && _ && _ && _); ku.
  - unfold sendC. destruct (_ && _ && _); ku.
  - unfold putC. destruct (nth_error _ i) as [[[[c1 x1] k1] d1]|]; [|exact RF]. destruct (connUp s); ku.
  - unfold recvC. destruct (given _ _ _); [|exact RF]. destruct (queue _ _); ku.
  - unfold closeC. destruct (given _ _ _); [|exact RF]. destruct (pUp _); ku.
  - destruct (Nat.eq_dec p0 p) as [->|N]; [congruence|]. unfold keepU. rewrite getP_updP.
    destruct (Nat.eqb_spec p p0); [congruence|]. reflexivity.
  - ku.
  - unfold bgPut. destruct (nth_error _ i) as [[[c1 x1] r]|]; [|exact RF]. destruct r; ku.
  - unfold bgQuit. destruct (nth_error _ i) as [[[c1 x1] r]|]; ku.
  - unfold bootC. destruct (boot t s); [exact RF|]. destruct (wire t s) as [|m r]; [exact RF|]. destruct (mTyp m); try exact RF.
    destruct (negb _); [ku|]. destruct (takesNew _); [|exact RF].
    eapply ku_trans with (b := updP (mTo m) (fun a => setMap (mCid m :: pMap a) a) s); [apply ku_updP; reflexivity|apply ku_same; reflexivity].
  - unfold firstC. destruct (boot t s) as [[c1 d]|]; [|exact RF]. destruct took; [destruct (_ <? cap)|destruct (eHalt _)]; ku.
  - unfold msgC. destruct (boot t s); [exact RF|]. destruct (wire t s) as [|m r]; [exact RF|].
    destruct (mTyp m); try exact RF; (destruct (_ <? cap); [|exact RF]); (eapply ku_trans; [|apply ku_same; reflexivity]); apply ku_updP; reflexivity.
  - unfold dropC. destruct (boot t s); [exact RF|]. destruct (wire t s) as [|m r]; [exact RF|].
    destruct (mTyp m); try exact RF; (destruct (_ <? cap); [exact RF|]); ku.
  - unfold pClose. destruct (nth_error _ i); [|exact RF]. destruct (pPump _); ku.
  - unfold pRead. destruct (pPump _); try exact RF. destruct (pReads _) as [|m r]; [exact RF|]. destruct (memN _ _).
    + destruct (mTyp m); ku.
    + destruct (eCanc _); ku.
  - unfold pErr. destruct (pPump _); try exact RF. destruct (pErrs _) as [|m r]; [exact RF|]. destruct (memN _ _); [|destruct (eCanc _)]; ku.
  - unfold pPut. destruct (pPump _) as [|c1 d late|c1 d|]; try exact RF; (destruct (_ <? cap); [|exact RF]); ku.
  - unfold pTwo. destruct (pPump _) as [|c1 d late|c1 d|]; try exact RF. destruct (_ <? cap); ku.
  - unfold pFive. destruct (pPump _) as [|c1 d late|c1 d|]; try exact RF. destruct late; [exact RF|]. destruct (_ <? cap); [exact RF|].
    eapply ku_trans; [|apply ku_cleanups]. eapply ku_trans; [|apply ku_same; reflexivity]. apply ku_updP. reflexivity.
  - unfold pHalted. destruct (pPump _) as [|c1 d late|c1 d|]; try exact RF; (destruct (eHalt _); [|exact RF]); ku.
  - unfold pExit. destruct (pPump _); try exact RF; (destruct (pUp _); [exact RF|]); ku.
Qed.

(** a peer stays up until it is told to stop, whatever becomes of its circuits. *)
Theorem C71_stays_up : forall cap cfg os p, p < length cfg -> ~ In (OHalt p) os ->
  pUp (getP p (run cap cfg os)) = true.
Proof.
  intros cap cfg os p L H. unfold run.
  assert (G : forall os s, ~ In (OHalt p) os -> pUp (getP p (fold_left (step cap) os s)) = pUp (getP p s)).
  { clear. induction os as [|o os IH]; intros s H; [reflexivity|]. cbn [fold_left]. rewrite IH.
    - apply step_keepU. intro Q. apply H. left. exact Q.
    - intro Q. apply H. right. exact Q. }
  rewrite G by exact H. unfold getP, init. cbn [peers].
  set (f := fun a : bool * bool => _). rewrite (nth_indep _ noPeer (f (true, false))) by (rewrite map_length; exact L).
  rewrite map_nth. reflexivity.
Qed.

Example C71_stays_up_ex : 1 < length two /\ ~ In (OHalt 1) five_ops.
Proof. split; [cbn; lia|]. intro H. cbn in H. repeat (destruct H as [H|H]; [discriminate|]). exact H. Qed.

(** a peer with AutoShutdownWhenNoMoreCircuits does not stop when its last
    circuit closes. *)
Theorem C71_auto_refuted : exists cap cfg os,
  let s := run cap cfg os in
  pAuto (getP 1 s) = true /\ quiet s /\ 0 < closeds 1 (hist s) /\ openCount 1 s = 0 /\ pUp (getP 1 s) = true.
Proof.
  exists 3, [(true, true); (false, true)], end_ops.
  split; [vm_compute; reflexivity|]. split; [apply quietb_ok; vm_compute; reflexivity|].
  split; [vm_compute; lia|]. vm_compute. auto.
Qed.

Print Assumptions C69_in_order.
Print Assumptions C69_no_gap_partial.
Print Assumptions C69_nothing_lost_partial.
Print Assumptions C69_full_channel_refuted.
Print Assumptions C69_other_closed_refuted.
Print Assumptions C69_early_answer_refuted.
Print Assumptions C70_after_data_partial.
Print Assumptions C70_told_partial.
Print Assumptions C70_reason_refuted.
Print Assumptions C70_connection_lost_refuted.
Print Assumptions C71_count.
Print Assumptions C71_closed_once.
Print Assumptions C71_open_iff.
Print Assumptions C71_stays_up.
Print Assumptions C71_auto_refuted.
