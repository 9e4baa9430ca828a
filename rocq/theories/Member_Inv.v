(** The moves of [Member_Abs] keep the invariant, and the invariant gives the tree of
    [Member_Tree]. *)
From Coq Require Import List Arith Bool Lia.
From Verif Require Import Base Member_Model Member_Spec Member_Tree Member_Abs.
Import ListNotations.

Lemma upd_same : forall A (f : nat -> A) n x, upd f n x n = x.
Proof. intros. unfold upd. rewrite Nat.eqb_refl. auto. Qed.
Lemma upd_other : forall A (f : nat -> A) n x k, k <> n -> upd f n x k = f k.
Proof. intros. unfold upd. destruct (Nat.eqb_spec k n); congruence. Qed.

Lemma cle_refl : forall c, cle c c.
Proof. intros. right. auto. Qed.
Lemma cle_trans : forall a b c, cle a b -> cle b c -> cle a c.
Proof. unfold cle. intros. lia. Qed.
Lemma versionGT_spec : forall a b, versionGT a b = true <-> ~ cle a b.
Proof.
  intros a b. unfold versionGT, cle. rewrite orb_true_iff, andb_true_iff, !Nat.ltb_lt, Nat.eqb_eq. lia.
Qed.
Lemma versionGT_false : forall a b, versionGT a b = false <-> cle a b.
Proof.
  intros a b. destruct (versionGT a b) eqn:E.
  - apply versionGT_spec in E. split; [discriminate|contradiction].
  - split; auto. intros _. unfold cle. unfold versionGT in E.
    rewrite orb_false_iff, andb_false_iff, !Nat.ltb_ge, Nat.eqb_neq in E. lia.
Qed.
Lemma newer_cle : forall c own, cle own (newer c own).
Proof.
  intros. unfold newer. destruct (versionGT c own) eqn:E; [|apply cle_refl].
  apply versionGT_spec in E. unfold cle in *. lia.
Qed.
Lemma newer_or : forall c own, newer c own = c \/ newer c own = own.
Proof. intros. unfold newer. destruct (versionGT c own); auto. Qed.

Section pres.
Variable v0 : nat.
Variable founders : list nat.
Notation Inv := (Inv v0 founders).
Notation okc := (okc v0 founders).
Notation leadOk := (leadOk v0).

Lemma okc_in : forall gk c, okc gk c -> c_mem c <> [] ->
  In (c_hist c) gk /\ c_term c = tm (c_hist c) /\ c_ver c = vr v0 (c_hist c) /\ c_mem c = mm founders (c_hist c).
Proof. intros gk c [H| ->] N; auto. simpl in N. congruence. Qed.
Lemma okc_pos : forall gk c, okc gk c -> 1 <= c_term c ->
  In (c_hist c) gk /\ c_term c = tm (c_hist c) /\ c_ver c = vr v0 (c_hist c) /\ c_mem c = mm founders (c_hist c).
Proof. intros gk c [H| ->] N; auto. simpl in N. lia. Qed.
Lemma okc_mono : forall gk x c, okc gk c -> okc (x :: gk) c.
Proof. intros gk x c [(A & B)| ->]; [left|right]; auto. split; auto. right; auto. Qed.

(** The tree. *)
Definition known (s : astate) (p : path) : Prop := In p (s_gk s).
Definition Win (s : astate) (T : nat) (l : who) (p : path) (Q : list nat) : Prop :=
  exists K, In (T, l, K, Q) (s_gw s) /\ c_hist K = p.
Definition Com (s : astate) (p : path) (Q : list nat) : Prop := In (p, Q) (s_gc s).

Lemma inv_tree : forall s, Inv s -> treeOk v0 founders (known s) (Win s) (Com s).
Proof.
  intros s I. unfold known, Win, Com. constructor.
  - intros. eapply i_pre; eauto.
  - intros T l p H. destruct (i_el _ _ _ I _ _ _ H) as (K & Q & W & E). eauto.
  - intros m p H. eapply i_rc; eauto.
  - intros. eapply i_one; eauto.
  - intros T l p Q (K & W & <-). destruct (i_win _ _ _ I _ _ _ _ W) as (O & N & L & M & _).
    destruct (okc_in _ _ O N) as (A & B & C & D). rewrite <- B, <- D. auto.
  - intros p Q H. destruct (i_gc _ _ _ I _ _ H) as (A & B & _). auto.
  - intros T l p Q l' p' Q' (K & W & _) (K' & W' & _) (x & Hx & Hx').
    destruct (i_win _ _ _ I _ _ _ _ W) as (_ & _ & _ & _ & V & _).
    destruct (i_win _ _ _ I _ _ _ _ W') as (_ & _ & _ & _ & V' & _).
    specialize (V x Hx). specialize (V' x Hx').
    destruct V as [(V1 & V2)|(Qa & V & <-)]; destruct V' as [(V1' & V2')|(Qb & V' & E')].
    + eapply i_vtu; eauto.
    + subst x. exfalso. eapply (i_winv _ _ _ I); eauto.
    + exfalso. eapply (i_winv _ _ _ I); eauto.
    + eapply (i_winu _ _ _ I); eauto.
  - intros T l p Q p' Q' (K & W & <-) (K' & W' & <-). f_equal. eapply (i_winu _ _ _ I _ _ _ _ _ _ _ W W'); eauto.
  - intros c Qc T l k Q C (K & W & <-) L (x & Hx & Hx').
    destruct (i_gc _ _ _ I _ _ C) as (_ & _ & _ & H). destruct (H x Hx) as (_ & _ & V).
    destruct (i_win _ _ _ I _ _ _ _ W) as (O & N & _ & _ & V' & _).
    specialize (V _ _ _ (V' x Hx') L). destruct (okc_in _ _ O N) as (A & B & D & _).
    unfold cle in V. simpl in V. unfold keyLe. rewrite <- B, <- D. exact V.
Qed.

Lemma inv_unique : forall s, Inv s -> forall T l K Q l' K' Q',
  In (T, l, K, Q) (s_gw s) -> In (T, l', K', Q') (s_gw s) -> l = l'.
Proof.
  intros s I T l K Q l' K' Q' W W'. eapply (tree_unique _ _ _ _ _ (inv_tree s I)).
  - exists K. split; eauto.
  - exists K'. split; eauto.
Qed.

Lemma inv_key : forall s, Inv s -> forall a b, okc (s_gk s) a -> okc (s_gk s) b -> c_mem a <> [] -> c_mem b <> [] ->
  cle a b -> cle b a -> c_mem a = c_mem b.
Proof.
  intros s I a b A B Na Nb L L'. destruct (okc_in _ _ A Na) as (A1 & A2 & A3 & A4). destruct (okc_in _ _ B Nb) as (B1 & B2 & B3 & B4).
  assert (c_hist a = c_hist b); [|congruence].
  eapply (tree_key _ _ _ _ _ (inv_tree s I)); unfold known, Com; auto.
  - intros p Q H. destruct (i_gc _ _ _ I _ _ H) as (_ & _ & P & _). exact P.
  - unfold cle in *. lia.
  - unfold cle in *. lia.
Qed.

(** [holds] persists. *)
Lemma holds_grow : forall s s' q c, holds s q c ->
  cle (a_cfg (s_nd s q)) (a_cfg (s_nd s' q)) -> a_dt (s_nd s q) <= a_dt (s_nd s' q) ->
  (forall T cand K, voteFact s' q T cand K -> voteFact s q T cand K \/ cle (a_cfg (s_nd s q)) K) ->
  holds s' q c.
Proof.
  intros s s' q c (A & B & C) L D V. split; [eapply cle_trans; eauto|]. split; [lia|].
  intros T cand K F LT. destruct (V _ _ _ F) as [F'|F'].
  - eauto.
  - eapply cle_trans; eauto.
Qed.

(** A node whose configuration has its term holds it. *)
Lemma holds_now : forall s q, Inv s -> c_term (a_cfg (s_nd s q)) = a_mt (s_nd s q) -> holds s q (a_cfg (s_nd s q)).
Proof.
  intros s q I E. pose proof (i_le1 _ _ _ I q). pose proof (i_le2 _ _ _ I q).
  split; [apply cle_refl|]. split; [lia|].
  intros T cand K [(V & _)|(Q & W & <-)] L; exfalso.
  - destruct (i_vt _ _ _ I _ _ _ V) as (D & _). lia.
  - destruct (i_win _ _ _ I _ _ _ _ W) as (_ & _ & _ & _ & _ & D). lia.
Qed.

Lemma lastEl_known : forall s, Inv s -> forall p T l, In p (s_gk s) -> lastEl p = Some (T, l) -> exists K Q, In (T, l, K, Q) (s_gw s).
Proof.
  intros s I p. induction p as [|e p IH] using rev_ind; intros T l H E; [discriminate|].
  rewrite lastEl_app in E. destruct e as [t x|m].
  - injection E as -> ->. destruct (i_el _ _ _ I _ _ _ H) as (K & Q & W & _). eauto.
  - eapply IH; eauto. eapply (i_pre _ _ _ I); eauto.
Qed.

(** Changes of one node that touch no list. *)
Lemma inv_setN : forall s n a', Inv s ->
  let a := s_nd s n in
  c_term (a_cfg a') <= a_dt a' -> a_dt a' <= a_mt a' -> okc (s_gk s) (a_cfg a') ->
  cle (a_cfg a) (a_cfg a') -> a_dt a <= a_dt a' ->
  (a_inc a < a_inc a' \/ (a_inc a = a_inc a' /\ a_mt a <= a_mt a')) ->
  seenOk s a' -> candOk s n a' -> leadOk s n a' -> singleOk s n a' ->
  Inv (setN s n a').
Proof.
  intros s n a' I a H1 H2 H3 H4 H5 H6 H7 H8 H9 H10.
  assert (HH : forall q c, holds s q c -> holds (setN s n a') q c).
  { intros q c H. eapply holds_grow; eauto; simpl.
    - destruct (Nat.eq_dec q n) as [->|N]; [rewrite upd_same; auto|rewrite upd_other by auto; apply cle_refl].
    - destruct (Nat.eq_dec q n) as [->|N]; [rewrite upd_same; auto|rewrite upd_other by auto; auto]. }
  constructor; simpl.
  - intros k. destruct (Nat.eq_dec k n) as [->|N]; [rewrite upd_same; auto|rewrite upd_other by auto; apply (i_le1 _ _ _ I)].
  - intros k. destruct (Nat.eq_dec k n) as [->|N]; [rewrite upd_same; auto|rewrite upd_other by auto; apply (i_le2 _ _ _ I)].
  - intros k. destruct (Nat.eq_dec k n) as [->|N]; [rewrite upd_same; auto|rewrite upd_other by auto; apply (i_cfg _ _ _ I)].
  - intros k. destruct (Nat.eq_dec k n) as [->|N]; [rewrite upd_same; auto|rewrite upd_other by auto; apply (i_cand _ _ _ I)].
  - intros k. destruct (Nat.eq_dec k n) as [->|N]; [rewrite upd_same; auto|rewrite upd_other by auto; apply (i_lead _ _ _ I)].
  - intros k. destruct (Nat.eq_dec k n) as [->|N]; [rewrite upd_same; auto|rewrite upd_other by auto; apply (i_single _ _ _ I)].
  - intros k. destruct (Nat.eq_dec k n) as [->|N]; [rewrite upd_same|rewrite upd_other by auto]; intros q c t Hs E1 E2; apply HH.
    + eapply H7; eauto.
    + eapply (i_seen _ _ _ I); eauto.
  - intros l t K H. destruct (i_rv _ _ _ I _ _ _ H) as (A & B & C & D). split; auto. split; auto. split; auto.
    destruct (Nat.eq_dec (fst l) n) as [E|N]; [rewrite E, upd_same|rewrite upd_other by auto; auto].
    fold a in H6. rewrite E in D. fold a in D. lia.
  - eapply (i_rvu _ _ _ I).
  - intros x t l H. destruct (i_vt _ _ _ I _ _ _ H) as (A & B & C). split; auto.
    destruct (Nat.eq_dec x n) as [->|N]; [rewrite upd_same; fold a in A; lia|rewrite upd_other by auto; auto].
  - eapply (i_vtu _ _ _ I).
  - intros q c t H. destruct (i_rep _ _ _ I _ _ _ H) as (A & B & C). auto.
  - eapply (i_ae _ _ _ I).
  - intros t l K Q H. destruct (i_win _ _ _ I _ _ _ _ H) as (A & B & C & D & E & F). repeat (split; auto).
    destruct (Nat.eq_dec (fst l) n) as [Ee|N]; [rewrite Ee, upd_same|rewrite upd_other by auto; auto].
    rewrite Ee in F. fold a in F. unfold cle in H4. lia.
  - eapply (i_winu _ _ _ I).
  - eapply (i_winv _ _ _ I).
  - eapply (i_nil _ _ _ I).
  - eapply (i_pre _ _ _ I).
  - eapply (i_el _ _ _ I).
  - eapply (i_rc _ _ _ I).
  - eapply (i_one _ _ _ I).
  - eapply (i_nd _ _ _ I).
  - intros p Q H. destruct (i_gc _ _ _ I _ _ H) as (A & B & C & D). repeat (split; auto).
Qed.

(** Nobody voted in a term above its term on disk. *)
Lemma no_vt : forall s n t l, Inv s -> a_dt (s_nd s n) < t -> ~ In (n, t, l) (s_vt s).
Proof. intros s n t l I L H. destruct (i_vt _ _ _ I _ _ _ H) as (A & _). lia. Qed.

Lemma source_ok : forall s t c, Inv s -> source s t c -> okc (s_gk s) c /\ c_term c <= t.
Proof.
  intros s t c I [(x & H)|[(x & H)|(q & t' & H & L)]].
  - destruct (i_rv _ _ _ I _ _ _ H) as (A & B & _). split; auto. lia.
  - destruct (i_ae _ _ _ I _ _ _ H) as (A & B & _). split; auto. lia.
  - destruct (i_rep _ _ _ I _ _ _ H) as (A & B & _). split; auto. lia.
Qed.

Lemma inv_quiet : forall s n dt r sn, Inv s ->
  a_dt (s_nd s n) <= dt <= a_mt (s_nd s n) ->
  r = a_role (s_nd s n) \/ r = Follower ->
  (forall q c t, In (q, (c, t)) sn -> In (q, (c, t)) (a_seen (s_nd s n)) \/ In (q, c, t) (s_rep s) \/ t <> c_term c \/ t = 0) ->
  Inv (setN s n (let a := s_nd s n in mkA (a_mt a) dt (a_cfg a) r (a_inc a) (a_votes a) sn)).
Proof.
  intros s n dt r sn I D R S. pose proof (i_le1 _ _ _ I n). pose proof (i_le2 _ _ _ I n).
  apply inv_setN; simpl; auto; try lia.
  - apply (i_cfg _ _ _ I).
  - apply cle_refl.
  - intros q c t Hs E1 E2. simpl in Hs. destruct (S _ _ _ Hs) as [Ha|[Ha|[Ha|Ha]]]; try lia.
    + eapply (i_seen _ _ _ I); eauto.
    + destruct (i_rep _ _ _ I _ _ _ Ha) as (_ & _ & B). auto.
  - intros E. simpl in *. destruct R as [-> | ->]; [|discriminate]. apply (i_cand _ _ _ I n E).
  - intros E. simpl in *. destruct R as [-> | ->]; [|discriminate]. apply (i_lead _ _ _ I n E).
  - intros l Hl. simpl in *. destruct (i_vt _ _ _ I _ _ _ Hl) as (A & _).
    assert (dt = a_dt (s_nd s n)) by lia. subst dt. apply (i_single _ _ _ I n l Hl).
Qed.

Lemma inv_report : forall s n, Inv s -> Inv (addRep s (n, a_cfg (s_nd s n), a_mt (s_nd s n))).
Proof.
  intros s n I.
  pose proof (i_le1 _ _ _ I n). pose proof (i_le2 _ _ _ I n).
  pose proof (i_cfg _ _ _ I n). pose proof (holds_now s n I).
  destruct I; constructor; simpl; auto.
  intros q c t [E|H']; [|apply i_rep; auto]. injection E as <- <- <-.
  split; auto. split; [eapply Nat.le_trans; eauto|]. intros E _. auto.
Qed.

Lemma inv_beat : forall s n, Inv s -> a_role (s_nd s n) = Leader ->
  Inv (addAE s ((n, a_inc (s_nd s n)), a_mt (s_nd s n), a_cfg (s_nd s n))).
Proof.
  intros s n I L.
  assert (E : exists K Q, In (a_mt (s_nd s n), (n, a_inc (s_nd s n)), K, Q) (s_gw s)).
  { destruct (i_lead _ _ _ I n L) as (A & B & C & _). destruct (okc_pos _ _ (i_cfg _ _ _ I n)) as (D & _); [lia|].
    eapply lastEl_known; eauto. }
  pose proof (i_lead _ _ _ I n L) as (A & _).
  destruct I; constructor; simpl; auto.
  intros q c t [Eq|H]; auto. injection Eq as <- <- <-. auto.
Qed.

Lemma inv_raise : forall s n t oc, Inv s -> a_mt (s_nd s n) < t ->
  (forall c, oc = Some c -> source s t c) ->
  Inv (setN s n (let a := s_nd s n in
       mkA t t (match oc with Some c => newer c (a_cfg a) | None => a_cfg a end) Follower (a_inc a) (a_votes a) (a_seen a))).
Proof.
  intros s n t oc I L S. pose proof (i_le1 _ _ _ I n). pose proof (i_le2 _ _ _ I n).
  assert (O : okc (s_gk s) (match oc with Some c => newer c (a_cfg (s_nd s n)) | None => a_cfg (s_nd s n) end) /\
              c_term (match oc with Some c => newer c (a_cfg (s_nd s n)) | None => a_cfg (s_nd s n) end) <= t /\
              cle (a_cfg (s_nd s n)) (match oc with Some c => newer c (a_cfg (s_nd s n)) | None => a_cfg (s_nd s n) end)).
  { destruct oc as [c|].
    - destruct (source_ok s t c I (S c eq_refl)) as (A & B). split; [|split; [|apply newer_cle]].
      + destruct (newer_or c (a_cfg (s_nd s n))) as [-> | ->]; auto. apply (i_cfg _ _ _ I).
      + destruct (newer_or c (a_cfg (s_nd s n))) as [-> | ->]; auto. lia.
    - split; [apply (i_cfg _ _ _ I)|]. split; [lia|apply cle_refl]. }
  destruct O as (O1 & O2 & O3).
  apply inv_setN; simpl; auto; try lia.
  - apply (i_seen _ _ _ I n).
  - intros E; discriminate.
  - intros E; discriminate.
  - intros l Hl. exfalso. simpl in Hl. eapply (no_vt s n); [eauto| |exact Hl]. lia.
Qed.

Lemma inv_adopt : forall s n l c, Inv s -> In (l, a_mt (s_nd s n), c) (s_ae s) ->
  versionGT c (a_cfg (s_nd s n)) = true ->
  Inv (setN s n (let a := s_nd s n in mkA (a_mt a) (a_mt a) c Follower (a_inc a) (a_votes a) (a_seen a))).
Proof.
  intros s n l c I H G. pose proof (i_le1 _ _ _ I n). pose proof (i_le2 _ _ _ I n).
  destruct (i_ae _ _ _ I _ _ _ H) as (A & B & _).
  apply inv_setN; simpl; auto; try lia.
  - apply versionGT_spec in G. unfold cle in *. lia.
  - apply (i_seen _ _ _ I n).
  - intros E; discriminate.
  - intros E; discriminate.
  - intros x _. simpl. auto.
Qed.

Lemma inv_tally : forall s n x, Inv s -> a_role (s_nd s n) = Candidate ->
  In (x, a_mt (s_nd s n), (n, a_inc (s_nd s n))) (s_vt s) -> In x (c_mem (a_cfg (s_nd s n))) ->
  ~ In x (a_votes (s_nd s n)) ->
  Inv (setN s n (let a := s_nd s n in mkA (a_mt a) (a_dt a) (a_cfg a) Candidate (a_inc a) (x :: a_votes a) (a_seen a))).
Proof.
  intros s n x I R V M N. pose proof (i_le1 _ _ _ I n). pose proof (i_le2 _ _ _ I n).
  apply inv_setN; simpl; auto; try lia.
  - apply (i_cfg _ _ _ I).
  - apply cle_refl.
  - apply (i_seen _ _ _ I n).
  - intros _. destruct (i_cand _ _ _ I n R) as (A & B & C & D & E & F). simpl. repeat (split; auto).
    + constructor; auto.
    + destruct H1 as [<- |H1]; auto. apply D; auto.
    + destruct H1 as [<- |H1]; auto. apply D; auto.
  - intros E; discriminate.
  - apply (i_single _ _ _ I n).
Qed.

Lemma inv_restart : forall s n, Inv s ->
  Inv (setN s n (let a := s_nd s n in mkA (a_dt a) (a_dt a) (a_cfg a) Follower (S (a_inc a)) [] [])).
Proof.
  intros s n I. pose proof (i_le1 _ _ _ I n). pose proof (i_le2 _ _ _ I n).
  apply inv_setN; simpl; auto; try lia.
  - apply (i_cfg _ _ _ I).
  - apply cle_refl.
  - intros q c t [].
  - intros E; discriminate.
  - intros E; discriminate.
  - intros l Hl. simpl in *. apply (i_single _ _ _ I n l Hl).
Qed.

Ltac upd_cases k n := let N := fresh "N" in
  destruct (Nat.eq_dec k n) as [->|N]; [rewrite ?upd_same|rewrite ?upd_other by auto].

Lemma inv_elect : forall s n, Inv s -> a_role (s_nd s n) = Follower -> In n (c_mem (a_cfg (s_nd s n))) ->
  Inv (addRV (setN s n (let a := s_nd s n in mkA (S (a_mt a)) (a_dt a) (a_cfg a) Candidate (a_inc a) [] (a_seen a)))
                 ((n, a_inc (s_nd s n)), S (a_mt (s_nd s n)), a_cfg (s_nd s n))).
Proof.
  intros s n I R M. pose proof (i_le1 _ _ _ I n). pose proof (i_le2 _ _ _ I n).
  set (s' := addRV _ _).
  assert (NV : forall q, ~ In (q, S (a_mt (s_nd s n)), (n, a_inc (s_nd s n))) (s_vt s)).
  { intros q V. destruct (i_vt _ _ _ I _ _ _ V) as (_ & (K & B) & _).
    destruct (i_rv _ _ _ I _ _ _ B) as (_ & _ & _ & D). simpl in D. lia. }
  assert (HH : forall q c, holds s q c -> holds s' q c).
  { intros q c Hh. eapply holds_grow; eauto; simpl.
    - upd_cases q n; apply cle_refl.
    - upd_cases q n; auto.
    - intros T cand K [(V & RV)|V]; left; [left|right; auto].
      simpl in V, RV. split; auto. destruct RV as [E|E]; auto. injection E as <- <- <-. exfalso. eapply NV; eauto. }
  constructor; simpl.
  - intros k. upd_cases k n; [simpl; lia|apply (i_le1 _ _ _ I)].
  - intros k. upd_cases k n; [simpl; lia|apply (i_le2 _ _ _ I)].
  - intros k. upd_cases k n; apply (i_cfg _ _ _ I).
  - intros k. upd_cases k n; intros Ro; simpl in *.
    + split; [lia|]. split; auto. split; [constructor|]. split; [intros x []|]. split; [|left; auto].
      intros l V. eapply (no_vt s n); [eauto| |exact V]. lia.
    + destruct (i_cand _ _ _ I k Ro) as (A & B & C & D & E & F). repeat (split; auto); apply D; auto.
  - intros k. upd_cases k n; [intros E; discriminate|apply (i_lead _ _ _ I k)].
  - intros k. upd_cases k n; apply (i_single _ _ _ I).
  - intros k q c t. upd_cases k n; intros Hs E1 E2; apply HH; eapply (i_seen _ _ _ I); eauto.
  - intros l t K [E|E].
    + injection E as <- <- <-. simpl. rewrite upd_same. simpl. split; [apply (i_cfg _ _ _ I)|]. split; [lia|]. split; auto.
    + destruct (i_rv _ _ _ I _ _ _ E) as (A & B & C & D). repeat (split; auto).
      remember (fst l) as k. upd_cases k n; simpl; auto. lia.
  - intros l t K K' [E|E] [E'|E'].
    + congruence.
    + injection E as <- <- <-. destruct (i_rv _ _ _ I _ _ _ E') as (_ & _ & _ & D). simpl in D. lia.
    + injection E' as <- <- <-. destruct (i_rv _ _ _ I _ _ _ E) as (_ & _ & _ & D). simpl in D. lia.
    + eapply (i_rvu _ _ _ I); eauto.
  - intros x t l V. destruct (i_vt _ _ _ I _ _ _ V) as (A & (K & B) & C). split; [|split; eauto].
    upd_cases x n; auto.
  - apply (i_vtu _ _ _ I).
  - intros q c t Hr. destruct (i_rep _ _ _ I _ _ _ Hr) as (A & B & C). auto.
  - apply (i_ae _ _ _ I).
  - intros t l K Q W. destruct (i_win _ _ _ I _ _ _ _ W) as (A & B & C & D & E & F). split; auto. split; auto. split; auto. split; auto. split.
    + intros x Hx. destruct (E x Hx) as [(V & RV)|V]; [left; split; auto; right; auto|right; auto].
    + remember (fst l) as k. upd_cases k n; auto.
  - apply (i_winu _ _ _ I).
  - apply (i_winv _ _ _ I).
  - apply (i_nil _ _ _ I).
  - apply (i_pre _ _ _ I).
  - apply (i_el _ _ _ I).
  - apply (i_rc _ _ _ I).
  - apply (i_one _ _ _ I).
  - apply (i_nd _ _ _ I).
  - intros p Q Hg. destruct (i_gc _ _ _ I _ _ Hg) as (A & B & C & D). repeat (split; auto).
Qed.

Lemma inv_vote : forall s n t cand K, Inv s -> a_mt (s_nd s n) < t -> In (cand, t, K) (s_rv s) -> fst cand <> n ->
  versionGT (newer K (a_cfg (s_nd s n))) K = false ->
  Inv (addVT (setN s n (let a := s_nd s n in mkA t t (newer K (a_cfg a)) Follower (a_inc a) (a_votes a) (a_seen a)))
                 (n, t, cand)).
Proof.
  intros s n t cand K I L RV NE G. cbv zeta. pose proof (i_le1 _ _ _ I n). pose proof (i_le2 _ _ _ I n).
  apply versionGT_false in G.
  destruct (i_rv _ _ _ I _ _ _ RV) as (Ok & Lt & Mb & _).
  pose proof (newer_cle K (a_cfg (s_nd s n))) as Nc.
  pose proof (newer_or K (a_cfg (s_nd s n))) as No.
  set (cf := newer K (a_cfg (s_nd s n))) in *.
  assert (Okc : okc (s_gk s) cf) by (destruct No as [-> | ->]; auto; apply (i_cfg _ _ _ I)).
  assert (Lc : c_term cf < t) by (unfold cle in G; lia).
  set (s' := addVT _ _).
  assert (HH : forall q c, holds s q c -> holds s' q c).
  { intros q c Hh. eapply holds_grow; eauto; simpl.
    - upd_cases q n; auto. apply cle_refl.
    - upd_cases q n; auto. simpl. lia.
    - intros T cand' K' [(V & RV')|V]; [|left; right; auto].
      simpl in V, RV'. destruct V as [V|V]; [|left; left; auto].
      injection V as <- <- <-. assert (K' = K) by (eapply (i_rvu _ _ _ I); eauto). subst K'.
      right. eapply cle_trans; eauto. }
  constructor; simpl.
  - intros k. upd_cases k n; [simpl; lia|apply (i_le1 _ _ _ I)].
  - intros k. upd_cases k n; [simpl; lia|apply (i_le2 _ _ _ I)].
  - intros k. upd_cases k n; [auto|apply (i_cfg _ _ _ I)].
  - intros k. upd_cases k n; intros Ro; simpl in *; [discriminate|].
    destruct (i_cand _ _ _ I k Ro) as (A & B & C & D & E & F). split; auto. split; auto. split; auto. split; [|split; auto].
    + intros x Hx. split; [apply D; auto|right; apply D; auto].
    + intros l [V|V]; [congruence|eapply E; eauto].
  - intros k. upd_cases k n; [intros E; discriminate|apply (i_lead _ _ _ I k)].
  - intros k. upd_cases k n; intros l V; simpl in *.
    + right. intros E1.
      assert (c_mem K = c_mem cf).
      { apply (inv_key s I); auto.
        - intros E2. rewrite E2 in Mb. destruct Mb.
        - rewrite E1. discriminate.
        - unfold cf, newer. destruct (versionGT K (a_cfg (s_nd s n))) eqn:E; [apply cle_refl|]. apply versionGT_false; auto. }
      rewrite H1, E1 in Mb. destruct Mb as [Mb|[]]. congruence.
    + destruct V as [V|V]; [congruence|]. apply (i_single _ _ _ I k l V).
  - intros k q c t'. upd_cases k n; intros Hs E1 E2; apply HH; eapply (i_seen _ _ _ I); eauto.
  - intros l t' K' E. destruct (i_rv _ _ _ I _ _ _ E) as (A & B & C & D). repeat (split; auto).
    remember (fst l) as k. upd_cases k n; simpl; auto. lia.
  - apply (i_rvu _ _ _ I).
  - intros x t' l [V|V].
    + injection V as <- <- <-. rewrite upd_same. simpl. eauto.
    + destruct (i_vt _ _ _ I _ _ _ V) as (A & B & C). split; auto. upd_cases x n; auto. simpl. lia.
  - intros x t' l l' [V|V] [V'|V'].
    + congruence.
    + injection V as <- <- <-. exfalso. eapply (no_vt s n); [eauto| |exact V']. lia.
    + injection V' as <- <- <-. exfalso. eapply (no_vt s n); [eauto| |exact V]. lia.
    + eapply (i_vtu _ _ _ I); eauto.
  - intros q c t' Hr. destruct (i_rep _ _ _ I _ _ _ Hr) as (A & B & C). auto.
  - apply (i_ae _ _ _ I).
  - intros t' l K' Q W. destruct (i_win _ _ _ I _ _ _ _ W) as (A & B & C & D & E & F). split; auto. split; auto. split; auto. split; auto. split.
    + intros x Hx. destruct (E x Hx) as [(V & V')|V]; [left; split; auto; right; auto|right; auto].
    + remember (fst l) as k. upd_cases k n; auto. simpl. unfold cle in Nc. lia.
  - apply (i_winu _ _ _ I).
  - intros t' l K' Q l' W [V|V]; [|eapply (i_winv _ _ _ I); eauto].
    destruct (i_win _ _ _ I _ _ _ _ W) as (_ & _ & _ & _ & _ & F). injection V as E1 E2 E3. rewrite <- E1 in F. lia.
  - apply (i_nil _ _ _ I).
  - apply (i_pre _ _ _ I).
  - apply (i_el _ _ _ I).
  - apply (i_rc _ _ _ I).
  - apply (i_one _ _ _ I).
  - apply (i_nd _ _ _ I).
  - intros p Q Hg. destruct (i_gc _ _ _ I _ _ Hg) as (A & B & C & D). repeat (split; auto).
Qed.

Lemma inv_win : forall s n t Q, Inv s -> let a := s_nd s n in let K := a_cfg a in let l := (n, a_inc a) in
    (a_role a = Candidate /\ t = a_mt a /\ Q = n :: a_votes a) \/
    (a_role a = Follower /\ c_mem K = [n] /\ Q = [n] /\
       ((c_term K < a_mt a /\ t = a_mt a) \/ (c_term K = a_mt a /\ t = S (a_mt a)))) ->
    length (c_mem K) < 2 * length Q ->
  Inv (addK (addWin (setN s n (mkA t t (stamp t l K) Leader (a_inc a) (a_votes a) (a_seen a))) (t, l, K, Q))
                (c_hist K ++ [El t l])).
Proof.
  intros s n t Q I a K l Hc Maj. pose proof (i_le1 _ _ _ I n). pose proof (i_le2 _ _ _ I n). fold a in H, H0.
  set (s' := addK _ _).
  assert (Fx : c_term K < t /\ a_mt a <= t /\ In n (c_mem K) /\ majorityOf (c_mem K) Q /\
               (forall x, In x Q -> voteFact s' x t l K) /\ forall l', ~ In (n, t, l') (s_vt s)).
  { destruct Hc as [(R & E1 & E2)|(R & E1 & E2 & E3)].
    - destruct (i_cand _ _ _ I n R) as (A & B & C & D & E & F). fold a in A, B, C, D, E, F. subst t Q.
      split; auto. split; auto. split; auto. split; [|split; auto].
      + split; [|split; auto].
        * constructor; auto. intros V. eapply E. apply (D n V).
        * intros x [<- |Hx]; auto. apply D; auto.
      + intros x [<- |Hx].
        * right. exists (n :: a_votes a). simpl. auto.
        * left. simpl. split; auto. apply D; auto.
    - subst Q. split; [destruct E3; lia|]. split; [destruct E3; lia|]. split; [rewrite E1; simpl; auto|].
      split; [rewrite E1; split; [repeat constructor; auto|split; [apply incl_refl|simpl; lia]]|]. split.
      + intros x [<- |[]]. right. exists [n]. simpl. auto.
      + intros l' V. destruct (i_vt _ _ _ I _ _ _ V) as (A & _). fold a in A.
        destruct E3 as [(E3 & ->)|(E3 & ->)]; [|lia].
        destruct (i_single _ _ _ I n l') as [S1|S1]; fold a; fold K; try contradiction; [|fold a K in S1; lia].
        fold a. replace (a_dt a) with (a_mt a) by lia. auto. }
  destruct Fx as (Lt & Lm & Mb & Mj & Vf & Nv).
  assert (Ne : c_mem K <> []) by (intros E; rewrite E in Mb; destruct Mb).
  destruct (okc_in _ _ (i_cfg _ _ _ I n) Ne) as (O1 & O2 & O3 & O4). fold a K in O1, O2, O3, O4.
  assert (NW : forall l' K' Q', In (t, l', K', Q') (s_gw s) -> fst l' <> n).
  { intros l' K' Q' W E. destruct (i_win _ _ _ I _ _ _ _ W) as (_ & _ & _ & _ & _ & F). rewrite E in F. fold a K in F. lia. }
  assert (HH : forall q c, holds s q c -> holds s' q c).
  { intros q c Hh. eapply holds_grow; eauto; simpl.
    - upd_cases q n; [|apply cle_refl]. fold a K. left. simpl. auto.
    - upd_cases q n; auto. simpl. fold a. lia.
    - intros T cand' K' [V|(Q' & V & E)]; [left; left; auto|].
      simpl in V. destruct V as [V|V]; [|left; right; eauto]. injection V as <- <- <- <-. simpl in E. subst q.
      right. apply cle_refl. }
  constructor; simpl.
  - intros k. upd_cases k n; [simpl; lia|apply (i_le1 _ _ _ I)].
  - intros k. upd_cases k n; [simpl; lia|apply (i_le2 _ _ _ I)].
  - intros k. upd_cases k n; [|apply okc_mono; apply (i_cfg _ _ _ I)]. simpl.
    left. simpl. split; auto. rewrite tm_app, vr_app, mm_app. simpl. auto.
  - intros k. upd_cases k n; intros Ro; simpl in *; [discriminate|].
    apply (i_cand _ _ _ I k Ro).
  - intros k. upd_cases k n; intros Ro; simpl in *.
    + split; auto. split; [lia|]. rewrite lastEl_app. split; auto.
      intros p [<- |Hp] E; [rewrite vr_app; simpl; lia|].
      destruct (lastEl_known s I _ _ _ Hp E) as (K' & Q' & W). exfalso. eapply NW; eauto.
    + destruct (i_lead _ _ _ I k Ro) as (A & B & C & D). split; auto. split; auto. split; auto.
      intros p [<- |Hp] E; [|apply D; auto]. rewrite lastEl_app in E. cbn in E. exfalso. unfold l in E; congruence.
  - intros k. upd_cases k n; intros l' V; simpl in *; auto.
    apply (i_single _ _ _ I k l' V).
  - intros k q c t'. upd_cases k n; intros Hs E1 E2; apply HH; eapply (i_seen _ _ _ I); eauto.
  - intros l' t' K' E. destruct (i_rv _ _ _ I _ _ _ E) as (A & B & C & D). split; [apply okc_mono; auto|]. split; auto. split; auto.
    remember (fst l') as k. upd_cases k n; simpl; auto. fold a in D. lia.
  - apply (i_rvu _ _ _ I).
  - intros x t' l' V. destruct (i_vt _ _ _ I _ _ _ V) as (A & B & C). split; auto. upd_cases x n; auto. simpl. fold a in A. lia.
  - apply (i_vtu _ _ _ I).
  - intros q c t' Hr. destruct (i_rep _ _ _ I _ _ _ Hr) as (A & B & C). split; [apply okc_mono; auto|]. auto.
  - intros l' t' c Ha. destruct (i_ae _ _ _ I _ _ _ Ha) as (A & B & K' & Q' & C). split; [apply okc_mono; auto|]. split; auto.
    exists K', Q'. auto.
  - intros t' l' K' Q' [W|W].
    + injection W as <- <- <- <-. split; [apply okc_mono; apply (i_cfg _ _ _ I)|]. split; auto. split; auto. split; auto. split; auto.
      simpl. rewrite upd_same. simpl. auto.
    + destruct (i_win _ _ _ I _ _ _ _ W) as (A & B & C & D & E & F). split; [apply okc_mono; auto|]. split; auto. split; auto. split; auto. split.
      * intros x Hx. destruct (E x Hx) as [V|(Q'' & V & V')]; [left; auto|right; exists Q''; simpl; auto].
      * remember (fst l') as k. upd_cases k n; auto. simpl. fold a K in F. lia.
  - intros t' l1 K1 Q1 l2 K2 Q2 [W1|W1] [W2|W2] E.
    + split; congruence.
    + injection W1 as <- <- <- <-. exfalso. eapply NW; eauto.
    + injection W2 as <- <- <- <-. exfalso. eapply NW; eauto.
    + eapply (i_winu _ _ _ I); eauto.
  - intros t' l1 K1 Q1 l2 [W|W]; [|eapply (i_winv _ _ _ I); eauto]. injection W as <- <- <- <-. apply Nv.
  - right. apply (i_nil _ _ _ I).
  - intros p e [E|E]; [|right; eapply (i_pre _ _ _ I); eauto]. apply app_inj_tail in E. destruct E as (<- & _). auto.
  - intros p t' l' [E|E].
    + apply app_inj_tail in E. destruct E as (E & E'). injection E' as <- <-. exists K, Q. auto.
    + destruct (i_el _ _ _ I _ _ _ E) as (K' & Q' & A & B). eauto.
  - intros p m [E|E]; [|apply (i_rc _ _ _ I); auto]. apply app_inj_tail in E. destruct E; discriminate.
  - intros p m m' [E|E] [E'|E'].
    + apply app_inj_tail in E. destruct E; discriminate.
    + apply app_inj_tail in E. destruct E; discriminate.
    + apply app_inj_tail in E'. destruct E'; discriminate.
    + eapply (i_one _ _ _ I); eauto.
  - intros p [<- |E]; [|apply (i_nd _ _ _ I); auto]. rewrite mm_app. simpl. apply (i_nd _ _ _ I); auto.
  - intros p Q' Hg. destruct (i_gc _ _ _ I _ _ Hg) as (A & B & C & D). split; auto.
Qed.

Lemma holds_key : forall s q a b, holds s q a -> c_term a = c_term b -> c_ver a = c_ver b -> holds s q b.
Proof.
  intros s q a b (A & B & C) E1 E2. split; [|split].
  - unfold cle in *. lia.
  - lia.
  - intros T cand K V L. specialize (C _ _ _ V). unfold cle in *. lia.
Qed.

Lemma inv_change : forall s n m Q, Inv s -> let a := s_nd s n in let c := a_cfg a in
    a_role a = Leader -> majorityOf (c_mem c) Q -> meets (c_mem c) m -> NoDup m ->
    (forall x, In x Q -> x = n \/ exists c', In (x, (c', a_mt a)) (a_seen a) /\ versionEqual c' c = true) ->
  Inv (addC (addK (setN s n (mkA (a_mt a) (a_mt a) (mkC (c_term c) (S (c_ver c)) m (c_hist c ++ [Rc m])) Leader
                                  (a_inc a) (a_votes a) (a_seen a)))
                      (c_hist c ++ [Rc m])) (c_hist c, Q)).
Proof.
  intros s n m Q I a c R Mj Mt Nd Vq. pose proof (i_le1 _ _ _ I n). pose proof (i_le2 _ _ _ I n). fold a c in H, H0.
  destruct (i_lead _ _ _ I n R) as (L1 & L2 & L3 & L4). fold a c in L1, L2, L3, L4.
  destruct (okc_pos _ _ (i_cfg _ _ _ I n)) as (O1 & O2 & O3 & O4); fold a; fold c; [lia|]. fold a c in O1, O2, O3, O4.
  set (s' := addC _ _).
  assert (HH : forall q c, holds s q c -> holds s' q c).
  { intros q d Hh. eapply holds_grow; eauto; simpl.
    - upd_cases q n; [|apply cle_refl]. fold a c. right. simpl. auto.
    - upd_cases q n; auto. }
  constructor; simpl.
  - intros k. upd_cases k n; [simpl; lia|apply (i_le1 _ _ _ I)].
  - intros k. upd_cases k n; [simpl; lia|apply (i_le2 _ _ _ I)].
  - intros k. upd_cases k n; [|apply okc_mono; apply (i_cfg _ _ _ I)]. simpl.
    left. simpl. split; auto. rewrite tm_app, vr_app, mm_app. simpl. auto.
  - intros k. upd_cases k n; intros Ro; simpl in *; [discriminate|].
    apply (i_cand _ _ _ I k Ro).
  - intros k. upd_cases k n; intros Ro; simpl in *.
    + split; auto. split; auto. rewrite lastEl_app. split; auto.
      intros p [<- |Hp] E; [rewrite vr_app; simpl; lia|]. specialize (L4 p Hp E). lia.
    + destruct (i_lead _ _ _ I k Ro) as (A & B & C & D). split; auto. split; auto. split; auto.
      intros p [<- |Hp] E; [|apply D; auto]. rewrite lastEl_app in E. rewrite L3 in E. exfalso. congruence.
  - intros k. upd_cases k n; intros l' V; simpl in *; auto.
    apply (i_single _ _ _ I k l' V).
  - intros k q d t'. upd_cases k n; intros Hs E1 E2; apply HH; eapply (i_seen _ _ _ I); eauto.
  - intros l' t' K' E. destruct (i_rv _ _ _ I _ _ _ E) as (A & B & C & D). split; [apply okc_mono; auto|]. split; auto. split; auto.
    remember (fst l') as k. upd_cases k n; simpl; auto.
  - apply (i_rvu _ _ _ I).
  - intros x t' l' V. destruct (i_vt _ _ _ I _ _ _ V) as (A & B & C). split; auto. upd_cases x n; auto. simpl. fold a in A. lia.
  - apply (i_vtu _ _ _ I).
  - intros q d t' Hr. destruct (i_rep _ _ _ I _ _ _ Hr) as (A & B & C). split; [apply okc_mono; auto|]. auto.
  - intros l' t' d Ha. destruct (i_ae _ _ _ I _ _ _ Ha) as (A & B & C). split; [apply okc_mono; auto|]. auto.
  - intros t' l' K' Q' W. destruct (i_win _ _ _ I _ _ _ _ W) as (A & B & C & D & E & F). split; [apply okc_mono; auto|].
    split; auto. split; auto. split; auto. split; auto.
    remember (fst l') as k. upd_cases k n; auto.
  - apply (i_winu _ _ _ I).
  - apply (i_winv _ _ _ I).
  - right. apply (i_nil _ _ _ I).
  - intros p e [E|E]; [|right; eapply (i_pre _ _ _ I); eauto]. apply app_inj_tail in E. destruct E as (<- & _). auto.
  - intros p t' l' [E|E].
    + apply app_inj_tail in E. destruct E; discriminate.
    + apply (i_el _ _ _ I _ _ _ E).
  - intros p m' [E|E].
    + apply app_inj_tail in E. destruct E as (<- & E). injection E as <-. rewrite <- O4. split; eauto.
    + destruct (i_rc _ _ _ I _ _ E) as ((Q' & A) & B). split; eauto.
  - assert (F : forall m', ~ In (c_hist c ++ [Rc m']) (s_gk s)).
    { intros m' E. specialize (L4 _ E). rewrite lastEl_app, vr_app in L4. specialize (L4 L3). simpl in L4. lia. }
    intros p m1 m2 [E|E] [E'|E'].
    + apply app_inj_tail in E. apply app_inj_tail in E'. destruct E, E'. congruence.
    + apply app_inj_tail in E. destruct E as (<- & _). exfalso. eapply F; eauto.
    + apply app_inj_tail in E'. destruct E' as (<- & _). exfalso. eapply F; eauto.
    + eapply (i_one _ _ _ I); eauto.
  - intros p [<- |E]; [|apply (i_nd _ _ _ I); auto]. rewrite mm_app. simpl. auto.
  - intros p Q' [Hg|Hg].
    + injection Hg as <- <-. split; auto. split; [rewrite <- O4; auto|]. split; [lia|].
      intros x Hx. apply HH. destruct (Vq x Hx) as [->|(c' & Hs & E)].
      * eapply holds_key; [apply (holds_now s n I)|simpl|simpl]; fold a c; lia.
      * unfold versionEqual in E. apply andb_true_iff in E. destruct E as (E1 & E2). apply Nat.eqb_eq in E1, E2.
        eapply holds_key; [eapply (i_seen _ _ _ I n); eauto|simpl|simpl]; fold a; lia.
    + destruct (i_gc _ _ _ I _ _ Hg) as (A & B & C & D). split; auto.
Qed.

Theorem inv_step : forall s s', ast s s' -> Inv s -> Inv s'.
Proof.
  intros s s' H I. destruct H.
  - apply inv_quiet; auto.
  - apply inv_report; auto.
  - apply inv_beat; auto.
  - apply inv_raise; auto.
  - eapply inv_vote; eauto.
  - eapply inv_adopt; eauto.
  - apply inv_elect; auto.
  - apply inv_tally; auto.
  - apply inv_win; auto.
  - apply inv_change; auto.
  - apply inv_restart; auto.
Qed.

Inductive asts (s : astate) : astate -> Prop :=
| asts_refl : asts s s
| asts_step : forall s1 s2, asts s s1 -> ast s1 s2 -> asts s s2.
Lemma asts_one : forall s s', ast s s' -> asts s s'.
Proof. intros. eapply asts_step; [constructor|auto]. Qed.
Lemma asts_trans : forall s1 s2 s3, asts s1 s2 -> asts s2 s3 -> asts s1 s3.
Proof. intros s1 s2 s3 H H'. induction H'; [auto|eapply asts_step; eauto]. Qed.
Theorem inv_steps : forall s s', asts s s' -> Inv s -> Inv s'.
Proof. intros s s' H. induction H; auto. intros. eapply inv_step; eauto. Qed.
End pres.
