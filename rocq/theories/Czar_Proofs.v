(** Lists of members, versions, and the invariant of the whole system. *)
From Coq Require Import List ZArith Bool Arith Lia.
Import ListNotations.
From Verif Require Import Czar_Model Czar_Spec.
Local Open Scope Z_scope.

(** * Small facts *)

Lemma pick_In {A} n (l : list (nat * A)) a : pick n l = Some a -> In (n, a) l.
Proof.
  induction l as [|[k b] r IH]; cbn; [discriminate|].
  destruct (Nat.eqb_spec k n) as [->|NE]; intro E; [inversion E; left; reflexivity|right; auto].
Qed.

Lemma drop_In {A} n (l : list (nat * A)) x : In x (drop n l) -> In x l.
Proof. unfold drop. rewrite filter_In. tauto. Qed.

Lemma getP_In m l e : getP m l = Some e -> In e l /\ dName (eDet e) = m.
Proof.
  induction l as [|x r IH]; cbn; [discriminate|].
  destruct (Nat.eqb_spec (dName (eDet x)) m) as [EQ|NE]; intro E.
  - inversion E; subst; auto.
  - destruct (IH E); auto.
Qed.

Lemma getP_None m l : getP m l = None <-> forall e, In e l -> dName (eDet e) <> m.
Proof.
  induction l as [|x r IH]; cbn; [split; [intros _ ? []|reflexivity]|].
  destruct (Nat.eqb_spec (dName (eDet x)) m) as [EQ|NE]; split.
  - discriminate.
  - intro H. exfalso. apply (H x (or_introl eq_refl) EQ).
  - intros H e [<-|I1]; [exact NE|apply IH; auto].
  - intro H. apply IH. intros e I1. apply H. auto.
Qed.

Lemma delP_In m l e : In e (delP m l) <-> In e l /\ dName (eDet e) <> m.
Proof.
  unfold delP. rewrite filter_In, negb_true_iff, Nat.eqb_neq. tauto.
Qed.

Lemma insP_In e l x : In x (insP e l) <-> x = e \/ In x l.
Proof.
  induction l as [|y r IH]; [cbn; intuition|]. cbn [insP].
  destruct (Nat.ltb (dName (eDet e)) (dName (eDet y))); cbn [In] in *; [intuition|]. rewrite IH. intuition.
Qed.

Lemma setP_In e l x : In x (setP e l) <-> x = e \/ (In x l /\ dName (eDet x) <> dName (eDet e)).
Proof. unfold setP. rewrite insP_In, delP_In. tauto. Qed.

Definition names (l : list plus) : list nat := map (fun e => dName (eDet e)) l.

Lemma NoDup_del m l : NoDup (names l) -> NoDup (names (delP m l)).
Proof.
  unfold names, delP. induction l as [|x r IH]; cbn; [auto|]. intro N. inversion N as [|? ? N1 N2]; subst.
  destruct (negb _); cbn; [|auto]. constructor; [|auto].
  intro I1. apply N1. rewrite in_map_iff in *. destruct I1 as [y [E I1]]. apply filter_In in I1. exists y; tauto.
Qed.

Lemma NoDup_ins e l : NoDup (names l) -> ~ In (dName (eDet e)) (names l) -> NoDup (names (insP e l)).
Proof.
  unfold names. induction l as [|x r IH]; cbn [insP map In]; intros N NI; [constructor; [intros []|constructor]|].
  inversion N as [|? ? N1 N2]; subst.
  destruct (Nat.ltb (dName (eDet e)) (dName (eDet x))); cbn [map]; [constructor; [cbn [In]; tauto|assumption]|].
  constructor; [|apply IH; tauto].
  rewrite in_map_iff. intros [y [E I1]]. apply insP_In in I1. destruct I1 as [-> |I1]; [apply NI; auto|].
  apply N1. rewrite in_map_iff. eauto.
Qed.

Lemma NoDup_set e l : NoDup (names l) -> NoDup (names (setP e l)).
Proof.
  intro N. unfold setP. apply NoDup_ins; [apply NoDup_del; assumption|].
  unfold names. rewrite in_map_iff. intros [y [E I1]]. apply delP_In in I1. tauto.
Qed.

Lemma getP_uniq l e : NoDup (names l) -> In e l -> getP (dName (eDet e)) l = Some e.
Proof.
  unfold names. induction l as [|x r IH]; cbn; [intros _ []|].
  intro N. inversion N as [|? ? N1 N2]; subst. intros [-> |I1].
  - rewrite Nat.eqb_refl. reflexivity.
  - destruct (Nat.eqb_spec (dName (eDet x)) (dName (eDet e))) as [EQ|NE]; [|auto].
    exfalso. apply N1. rewrite EQ. apply in_map_iff. eauto.
Qed.

Lemma delP_id m l : getP m l = None -> delP m l = l.
Proof.
  intro G. unfold delP. rewrite getP_None in G.
  induction l as [|x r IH]; cbn; [reflexivity|].
  assert (N : dName (eDet x) <> m) by (apply G; left; reflexivity).
  apply Nat.eqb_neq in N. rewrite N. cbn. f_equal. apply IH. intros e I1. apply G. right; exact I1.
Qed.

Lemma folddel_In gone l e :
  In e (fold_left (fun l e => delP (dName (eDet e)) l) gone l) <->
  In e l /\ forall g, In g gone -> dName (eDet e) <> dName (eDet g).
Proof.
  revert l. induction gone as [|g r IH]; cbn; intro l; [intuition|].
  rewrite IH, delP_In. split.
  - intros [[A B] C]. split; [assumption|]. intros g' [<-|I1]; auto.
  - intros [A B]. auto 6.
Qed.

Lemma folddel_NoDup gone l : NoDup (names l) -> NoDup (names (fold_left (fun l e => delP (dName (eDet e)) l) gone l)).
Proof. revert l. induction gone as [|g r IH]; cbn; intros l N; [assumption|]. apply IH, NoDup_del, N. Qed.

Lemma vlt_false a b : vlt a b = false <-> vle b a.
Proof.
  unfold vlt, vle. rewrite orb_false_iff, andb_false_iff, Z.ltb_ge, Z.eqb_neq, Z.ltb_ge. lia.
Qed.

Lemma vle_refl a : vle a a.
Proof. unfold vle; lia. Qed.
Lemma vle_trans a b c : vle a b -> vle b c -> vle a c.
Proof. unfold vle; lia. Qed.
Lemma vle_bump v : vle v (bump v).
Proof. unfold vle, bump; cbn; lia. Qed.

Lemma contentOf_who l : contentOf l = who l.
Proof. unfold contentOf, who, ids. destruct (lCzar l); reflexivity. Qed.

Lemma setProc_eq i x f : setProc i x f i = x.
Proof. unfold setProc. rewrite Nat.eqb_refl. reflexivity. Qed.
Lemma setProc_ne i j x f : j <> i -> setProc i x f j = f j.
Proof. intro N. unfold setProc. apply Nat.eqb_neq in N. rewrite N. reflexivity. Qed.

Lemma later_pos d : 0 <= later d.
Proof. unfold later. lia. Qed.

(** * The invariant *)

Definition own (H : list (Z * obs)) (e : Z) (i : nat) : Prop := exists t, In (t, OEpoch e i) H.

Lemma own_app H K e i : own (H ++ K) e i <-> own H e i \/ own K e i.
Proof.
  unfold own. split.
  - intros [t I1]. apply in_app_or in I1. destruct I1; eauto.
  - intros [[t I1]|[t I1]]; exists t; apply in_or_app; auto.
Qed.

Lemma shown_app H K v l : shown (H ++ K) v l <-> shown H v l \/ shown K v l.
Proof.
  unfold shown. split.
  - intros [t [[p I1]|[q [p I1]]]]; apply in_app_or in I1; destruct I1; eauto 8.
  - intros [[t [[p I1]|[q [p I1]]]]|[t [[p I1]|[q [p I1]]]]]; exists t.
    + left. exists p. apply in_or_app; auto.
    + right. exists q, p. apply in_or_app; auto.
    + left. exists p. apply in_or_app; auto.
    + right. exists q, p. apply in_or_app; auto.
Qed.

Section Inv.
Variable drift : Z.
Hypothesis drift0 : 0 <= drift.

(** A list is sound at an instant, for the processes started so far. *)
Definition okL (now : Z) (used : list (nat * nat)) (l : mlist) : Prop :=
  (forall c, lCzar l = Some c -> In (dPeer c, dName c) used) /\
  (forall e, In e (lPeers l) -> 0 < eUntil e <= now + memberLease) /\
  NoDup (names (lPeers l)).

Record ctx := Ctx { xNow : Z; xLeaf : option leaf; xUsed : list (nat * nat); xNext : nat; xH : list (Z * obs) }.

Definition serial (x : wait) (n : nat) : Prop :=
  match x with Idle => False | WCas k _ => k = n | WRenew k => k = n | WPing k _ => k = n end.

Record procOK (c : ctx) (i : nat) (P : proc) : Prop := {
  po_used : In (i, cName P) (xUsed c);
  po_list : okL (xNow c) (xUsed c) (cList P);
  po_zero : 0 <= vEpoch (cVers P) /\ (vEpoch (cVers P) = 0 -> vUntil (cVers P) = 0);
  po_until : vUntil (cVers P) = 0 \/ exists l, xLeaf c = Some l /\ vUntil (cVers P) <= fUntil l + drift;
  po_epoch : vEpoch (cVers P) = 0 \/ exists j, own (xH c) (vEpoch (cVers P)) j;
  po_own : own (xH c) (vEpoch (cVers P)) i ->
           lCzar (cList P) = Some (Det (cName P) i (cAddr P)) /\ getP (cName P) (lPeers (cList P)) = None;
  po_am : cState P = Am -> own (xH c) (vEpoch (cVers P)) i \/ vUntil (cVers P) < xNow c;
  po_not : lCzar (cList P) = None -> vEpoch (cVers P) = 0;
  po_renew : forall n, cWait P = WRenew n ->
             lCzar (cList P) = Some (Det (cName P) i (cAddr P)) /\ getP (cName P) (lPeers (cList P)) = None;
  po_serial : forall n, serial (cWait P) n -> (n < xNext c)%nat;
  po_cas : forall n l, cWait P = WCas n l -> l = contend i P;
  po_conn : forall q a, cConn P = Some (q, a) -> exists nm, In (q, nm) (xUsed c) /\ nm <> cName P;
  po_ping : forall n b, cWait P = WPing n b -> cState P <> Am;
  po_views : forall v l, shown (xH c) v l -> own (xH c) (vEpoch v) i ->
             vle v (cVers P) /\ (sameVersion v (cVers P) -> contentOf l = contentOf (cList P));
  po_seen : forall t v l, In (t, OUp i v l) (xH c) -> vle v (cVers P);
  po_keep : forall t p v l m e, In (t, OAns i p v l) (xH c) -> vEpoch v = vEpoch (cVers P) ->
            getP m (lPeers l) = Some e -> m <> cName P ->
            (exists e', getP m (lPeers (cList P)) = Some e' /\ eUntil e <= eUntil e') \/ eUntil e + drift < xNow c
}.

Record histOK (c : ctx) : Prop := {
  ho_now : 1 <= xNow c;
  ho_fun : forall i a b, In (i, a) (xUsed c) -> In (i, b) (xUsed c) -> a = b;
  ho_own : forall e i, own (xH c) e i -> 1 <= e /\ (exists nm, In (i, nm) (xUsed c)) /\
                       exists l, xLeaf c = Some l /\ e <= fEpoch l;
  ho_one : forall e i j, own (xH c) e i -> own (xH c) e j -> i = j;
  ho_leaf : forall l, xLeaf c = Some l -> own (xH c) (fEpoch l) (fPeer l) /\ In (fPeer l, fName l) (xUsed c) /\
                      okL (xNow c) (xUsed c) (fVal l) /\ exists a, lCzar (fVal l) = Some (Det (fName l) (fPeer l) a);
  ho_view : forall v l, shown (xH c) v l -> exists j, own (xH c) (vEpoch v) j;
  ho_ans : forall t q p v l, In (t, OAns q p v l) (xH c) -> own (xH c) (vEpoch v) q /\ okL (xNow c) (xUsed c) l /\ lCzar l <> None /\
           exists nm, In (q, nm) (xUsed c) /\ getP nm (lPeers l) = None;
  ho_up : forall t i v l, In (t, OUp i v l) (xH c) -> exists nm, In (i, nm) (xUsed c);
  ho_agree : forall v l v' l', shown (xH c) v l -> shown (xH c) v' l' -> sameVersion v v' -> contentOf l = contentOf l'
}.

Definition waitsCas (P : proc) (n : nat) : Prop := (exists l, cWait P = WCas n l) \/ cWait P = WRenew n.
Definition waitsPing (P : proc) (n : nat) : Prop := exists b, cWait P = WPing n b.

Definition boundU (c : ctx) (u : Z) : Prop := exists l, xLeaf c = Some l /\ u <= fUntil l + drift.

Definition tktOK (c : ctx) (pr : nat -> option proc) (n : nat) (t : tkt) : Prop :=
  (n < xNext c)%nat /\ In (tPeer t, tName t) (xUsed c) /\ okL (xNow c) (xUsed c) (tVal t) /\ 0 <= tPrev t /\
  (exists a, lCzar (tVal t) = Some (Det (tName t) (tPeer t) a)) /\
  forall i P, pr i = Some P -> waitsCas P n -> tPeer t = i /\ tPrev t = vEpoch (cVers P).

Definition resOK (c : ctx) (pr : nat -> option proc) (n : nat) (r : casRes) : Prop :=
  (n < xNext c)%nat /\
  match r with
  | Won e u =>
      boundU c u /\ 1 <= e /\
      forall i P, pr i = Some P -> waitsCas P n ->
        own (xH c) e i /\ vEpoch (cVers P) <= e /\
        (vEpoch (cVers P) = e \/ vUntil (cVers P) <= u \/ vUntil (cVers P) = 0)
  | Lost e u cur =>
      boundU c u /\ okL (xNow c) (xUsed c) cur /\
      exists k, lCzar cur = Some k /\ own (xH c) e (dPeer k)
  | Failed => True
  end.

Definition pingOK (c : ctx) (pr : nat -> option proc) (n : nat) (g : ping) : Prop :=
  (n < xNext c)%nat /\ In (pFrom g, dName (pArgs g)) (xUsed c) /\ dPeer (pArgs g) = pFrom g /\
  (exists nm, In (pTo g, nm) (xUsed c) /\ nm <> dName (pArgs g)) /\
  forall i P, pr i = Some P -> waitsPing P n -> i = pFrom g.

Definition pongOK (c : ctx) (pr : nat -> option proc) (n : nat) (a : option (vers * mlist)) : Prop :=
  (n < xNext c)%nat /\
  match a with
  | None => True
  | Some (v, l) =>
      boundU c (vUntil v) /\ exists t q p, In (t, OAns q p v l) (xH c) /\
      forall i P, pr i = Some P -> waitsPing P n -> i <> q
  end.

Definition ctxOf (w : world) (used : list (nat * nat)) (H : list (Z * obs)) : ctx :=
  Ctx (wNow w) (wLeaf w) used (wNext w) H.

Record Inv (w : world) (used : list (nat * nat)) (H : list (Z * obs)) : Prop := {
  iv_used : map fst used = wUsed w;
  iv_hist : histOK (ctxOf w used H);
  iv_proc : forall i P, wProcs w i = Some P -> procOK (ctxOf w used H) i P;
  iv_tkt : forall n t, In (n, t) (wTkts w) -> tktOK (ctxOf w used H) (wProcs w) n t;
  iv_res : forall n r, In (n, r) (wRes w) -> resOK (ctxOf w used H) (wProcs w) n r;
  iv_ping : forall n g, In (n, g) (wPings w) -> pingOK (ctxOf w used H) (wProcs w) n g;
  iv_pong : forall n a, In (n, a) (wPongs w) -> pongOK (ctxOf w used H) (wProcs w) n a
}.

Lemma okL_mono now now' used used' l :
  now <= now' -> (forall x, In x used -> In x used') -> okL now used l -> okL now' used' l.
Proof.
  intros A B (C & D & E). split; [|split]; auto.
  intros e I1. specialize (D e I1). lia.
Qed.

Lemma okL_del now used l c m :
  okL now used l -> (forall k, c = Some k -> In (dPeer k, dName k) used) ->
  okL now used (ML c (delP m (lPeers l))).
Proof.
  intros (A & B & C) D. split; [|split]; cbn.
  - assumption.
  - intros e I1. apply delP_In in I1. apply B. tauto.
  - apply NoDup_del, C.
Qed.

(** ** What grows *)

Definition grows (c c' : ctx) (K : list (Z * obs)) : Prop :=
  xNow c <= xNow c' /\
  (forall l, xLeaf c = Some l -> exists l', xLeaf c' = Some l' /\ fUntil l <= fUntil l' /\ fEpoch l <= fEpoch l') /\
  (forall x, In x (xUsed c) -> In x (xUsed c')) /\ (xNext c <= xNext c')%nat /\ xH c' = xH c ++ K.

Lemma grows_own c c' K e i : grows c c' K -> own (xH c) e i -> own (xH c') e i.
Proof. intros (_ & _ & _ & _ & ->) O. apply own_app. auto. Qed.

Lemma grows_okL c c' K l : grows c c' K -> okL (xNow c) (xUsed c) l -> okL (xNow c') (xUsed c') l.
Proof. intros (A & _ & B & _). apply okL_mono; assumption. Qed.

Lemma grows_bound c c' K u : grows c c' K -> boundU c u -> boundU c' u.
Proof.
  intros (_ & A & _) (l & E & L). destruct (A _ E) as (l' & E' & LE & _). exists l'. split; [assumption|lia].
Qed.

Lemma no_own K e i : (forall t e i, ~ In (t, OEpoch e i) K) -> ~ own K e i.
Proof. intros N [t I1]. exact (N _ _ _ I1). Qed.

(** A process that does not move while the rest does. *)
Lemma procOK_mono c c' K i P :
  grows c c' K ->
  (forall e, own K e i -> vEpoch (cVers P) <> e /\ forall v l, shown (xH c) v l -> vEpoch v <> e) ->
  (forall v l, shown K v l -> shown (xH c) v l \/ ~ own (xH c') (vEpoch v) i) ->
  (forall t v l, ~ In (t, OUp i v l) K) -> (forall t p v l, ~ In (t, OAns i p v l) K) ->
  procOK c i P -> procOK c' i P.
Proof.
  intros G K1 K2 K3 K4 [A1 A2 A3 A4 A5 A6 A7 A8 A8b A9 A10 A11 A11b A12 A13 A14].
  pose proof G as (G1 & G2 & G3 & G4 & G5).
  constructor.
  - auto.
  - eapply grows_okL; eassumption.
  - assumption.
  - destruct A4 as [A4|A4]; [left; assumption|right]. exact (grows_bound _ _ _ _ G A4).
  - destruct A5 as [A5|[j A5]]; [left; assumption|right; exists j; eapply grows_own; eassumption].
  - rewrite G5, own_app. intros [O|O]; [auto|]. destruct (K1 _ O) as [N _]. congruence.
  - intro S. destruct (A7 S) as [O|L]; [left; eapply grows_own; eassumption|right; lia].
  - assumption.
  - assumption.
  - intros n S. specialize (A9 n S). lia.
  - assumption.
  - intros q a E. destruct (A11 q a E) as (nm & I1 & NE). eauto.
  - assumption.
  - intros v l S O.
    assert (S0 : shown (xH c) v l).
    { pose proof S as S1. rewrite G5, shown_app in S1. destruct S1 as [S1|S1]; [assumption|].
      destruct (K2 _ _ S1) as [S2|N]; [assumption|contradiction]. }
    rewrite G5, own_app in O. destruct O as [O|O]; [auto|].
    destruct (K1 _ O) as [_ N]. exfalso. exact (N _ _ S0 eq_refl).
  - intros t v l I1. rewrite G5 in I1. apply in_app_or in I1. destruct I1 as [I1|I1]; [eauto|destruct (K3 _ _ _ I1)].
  - intros t p v l m e I1 E1 E2 N. rewrite G5 in I1. apply in_app_or in I1.
    destruct I1 as [I1|I1]; [|destruct (K4 _ _ _ _ I1)].
    destruct (A14 _ _ _ _ _ _ I1 E1 E2 N) as [L|L]; [auto|right; lia].
Qed.

Definition stays (c : ctx) (pr pr' : nat -> option proc) : Prop :=
  forall j Q', pr' j = Some Q' ->
    (exists Q, pr j = Some Q /\ cWait Q = cWait Q' /\ cVers Q = cVers Q') \/
    (forall n, serial (cWait Q') n -> (xNext c <= n)%nat).

Lemma waitsCas_serial P n : waitsCas P n -> serial (cWait P) n.
Proof. intros [[l E]|E]; rewrite E; reflexivity. Qed.
Lemma waitsPing_serial P n : waitsPing P n -> serial (cWait P) n.
Proof. intros [b E]; rewrite E; reflexivity. Qed.

Lemma stays_cas c pr pr' n j Q' : stays c pr pr' -> (n < xNext c)%nat -> pr' j = Some Q' -> waitsCas Q' n ->
  exists Q, pr j = Some Q /\ waitsCas Q n /\ cVers Q = cVers Q'.
Proof.
  intros ST L E W. destruct (ST _ _ E) as [(Q & E1 & E2 & E3)|N].
  - exists Q. split; [assumption|]. split; [|assumption]. unfold waitsCas in *. rewrite E2. assumption.
  - specialize (N _ (waitsCas_serial _ _ W)). lia.
Qed.
Lemma stays_ping c pr pr' n j Q' : stays c pr pr' -> (n < xNext c)%nat -> pr' j = Some Q' -> waitsPing Q' n ->
  exists Q, pr j = Some Q /\ waitsPing Q n /\ cVers Q = cVers Q'.
Proof.
  intros ST L E W. destruct (ST _ _ E) as [(Q & E1 & E2 & E3)|N].
  - exists Q. split; [assumption|]. split; [|assumption]. unfold waitsPing in *. rewrite E2. assumption.
  - specialize (N _ (waitsPing_serial _ _ W)). lia.
Qed.

Lemma tktOK_mono c c' K pr pr' n t : grows c c' K -> stays c pr pr' -> tktOK c pr n t -> tktOK c' pr' n t.
Proof.
  intros G ST (A & B & C & D & E & F). pose proof G as (G1 & G2 & G3 & G4 & G5).
  split; [lia|]. split; [auto|]. split; [eapply grows_okL; eassumption|]. split; [assumption|]. split; [assumption|].
  intros i P E1 W. destruct (stays_cas _ _ _ _ _ _ ST A E1 W) as (Q & Q1 & Q2 & Q3).
  destruct (F _ _ Q1 Q2) as [X Y]. rewrite <- Q3. auto.
Qed.

Lemma resOK_mono c c' K pr pr' n r : grows c c' K -> stays c pr pr' -> resOK c pr n r -> resOK c' pr' n r.
Proof.
  intros G ST (A & B). pose proof G as (G1 & G2 & G3 & G4 & G5). split; [lia|].
  destruct r as [e u|e u cur|]; [| |exact I].
  - destruct B as (B1 & B2 & B3). split; [eapply grows_bound; eassumption|]. split; [assumption|].
    intros i P E1 W. destruct (stays_cas _ _ _ _ _ _ ST A E1 W) as (Q & Q1 & Q2 & Q3).
    destruct (B3 _ _ Q1 Q2) as (X & Y & Z). rewrite <- Q3. split; [eapply grows_own; eassumption|auto].
  - destruct B as (B1 & B2 & k & B3 & B4). split; [eapply grows_bound; eassumption|].
    split; [eapply grows_okL; eassumption|]. exists k. split; [assumption|eapply grows_own; eassumption].
Qed.

Lemma pingOK_mono c c' K pr pr' n g : grows c c' K -> stays c pr pr' -> pingOK c pr n g -> pingOK c' pr' n g.
Proof.
  intros G ST (A & B & C & (nm & D1 & D2) & E). pose proof G as (G1 & G2 & G3 & G4 & G5).
  split; [lia|]. split; [auto|]. split; [assumption|]. split; [eauto|].
  intros i P E1 W. destruct (stays_ping _ _ _ _ _ _ ST A E1 W) as (Q & Q1 & Q2 & Q3). eauto.
Qed.

Lemma pongOK_mono c c' K pr pr' n a : grows c c' K -> stays c pr pr' -> pongOK c pr n a -> pongOK c' pr' n a.
Proof.
  intros G ST (A & B). pose proof G as (G1 & G2 & G3 & G4 & G5). split; [lia|].
  destruct a as [[v l]|]; [|exact I]. destruct B as (B1 & t & q & p & B2 & B3).
  split; [eapply grows_bound; eassumption|]. exists t, q, p. split; [rewrite G5; apply in_or_app; auto|].
  intros i P E1 W. destruct (stays_ping _ _ _ _ _ _ ST A E1 W) as (Q & Q1 & Q2 & Q3). eauto.
Qed.

(** The history when no epoch is added. *)
Lemma histOK_mono c c' K i :
  grows c c' K -> xLeaf c' = xLeaf c -> xUsed c' = xUsed c ->
  (forall t e j, ~ In (t, OEpoch e j) K) ->
  (forall v l, shown K v l -> shown (xH c) v l \/
     (own (xH c) (vEpoch v) i /\
      forall v' l', shown (xH c) v' l' \/ shown K v' l' -> sameVersion v' v -> contentOf l' = contentOf l)) ->
  (forall t q p v l, In (t, OAns q p v l) K -> own (xH c) (vEpoch v) q /\ okL (xNow c') (xUsed c) l /\ lCzar l <> None /\
     exists nm, In (q, nm) (xUsed c) /\ getP nm (lPeers l) = None) ->
  (forall t j v l, In (t, OUp j v l) K -> exists nm, In (j, nm) (xUsed c)) ->
  histOK c -> histOK c'.
Proof.
  intros G EL EU K1 K2 K3 K4 [A1 A2 A3 A4 A5 A6 A7 A7b A8]. pose proof G as (G1 & G2 & G3 & G4 & G5).
  assert (OW : forall e j, own (xH c') e j <-> own (xH c) e j).
  { intros e j. rewrite G5, own_app. split; [intros [O|O]; [assumption|destruct (no_own _ _ _ K1 O)]|auto]. }
  constructor.
  - lia.
  - rewrite EU. assumption.
  - intros e j O. rewrite OW in O. rewrite EL, EU. auto.
  - intros e j k O O'. rewrite OW in O, O'. eauto.
  - intros l E. rewrite EL in E. destruct (A5 _ E) as (B1 & B2 & B3 & B4). rewrite OW, EU.
    split; [assumption|]. split; [assumption|]. split; [|assumption].
    rewrite <- EU. eapply grows_okL; eassumption.
  - intros v l S. rewrite G5, shown_app in S.
    assert (X : exists j, own (xH c) (vEpoch v) j).
    { destruct S as [S|S]; [eauto|]. destruct (K2 _ _ S) as [S'|[O _]]; eauto. }
    destruct X as [j O]. exists j. apply OW. assumption.
  - intros t q p v l I1. rewrite G5 in I1. apply in_app_or in I1. rewrite OW, EU. destruct I1 as [I1|I1].
    + destruct (A7 _ _ _ _ _ I1) as (B1 & B2 & B3). split; [assumption|]. split; [|assumption].
      rewrite <- EU. eapply grows_okL; eassumption.
    + eauto.
  - intros t j v l J. rewrite G5 in J. apply in_app_or in J. rewrite EU. destruct J; eauto.
  - intros v l v' l' S S' V. rewrite G5, shown_app in S, S'.
    assert (SYM : sameVersion v' v) by (destruct V; split; congruence).
    assert (HH : forall v l v' l', shown (xH c) v l -> shown (xH c) v' l' \/ shown K v' l' -> sameVersion v v' -> contentOf l = contentOf l').
    { clear - K2 A8. intros v l v' l' S [S'|S'] V; [eauto|].
      destruct (K2 _ _ S') as [S2|[O F]]; [eauto|]. apply (F v l); auto. }
    destruct S as [S|S]; [eauto|]. destruct S' as [S'|S']; [symmetry; eauto|].
    destruct (K2 _ _ S) as [S2|[O F]]; [eauto|]. symmetry. apply (F v' l'); auto.
Qed.

Lemma shown_nil v l : ~ shown [] v l.
Proof. intros [t [[p []]|[q [p []]]]]. Qed.

(** A step that changes one process and leaves the key alone. *)
Lemma Inv_upd w used H w' K i X :
  Inv w used H ->
  wUsed w' = wUsed w -> wLeaf w' = wLeaf w -> wNow w <= wNow w' -> (wNext w <= wNext w')%nat ->
  (forall j, wProcs w' j = setProc i X (wProcs w) j) ->
  (forall t e j, ~ In (t, OEpoch e j) K) ->
  (forall v l, shown K v l -> shown H v l \/
     (own H (vEpoch v) i /\
      forall v' l', shown H v' l' \/ shown K v' l' -> sameVersion v' v -> contentOf l' = contentOf l)) ->
  (forall t j v l, In (t, OUp j v l) K -> j = i /\ exists nm, In (i, nm) used) ->
  (forall t q p v l, In (t, OAns q p v l) K -> q = i /\ own H (vEpoch v) q /\ okL (wNow w') used l /\ lCzar l <> None /\
     exists nm, In (q, nm) used /\ getP nm (lPeers l) = None) ->
  (forall P', X = Some P' -> procOK (ctxOf w' used (H ++ K)) i P' /\
     ((exists P, wProcs w i = Some P /\ cWait P = cWait P' /\ cVers P = cVers P') \/
      forall n, serial (cWait P') n -> (wNext w <= n)%nat)) ->
  (forall n t, In (n, t) (wTkts w') -> In (n, t) (wTkts w) \/ tktOK (ctxOf w' used (H ++ K)) (wProcs w') n t) ->
  (forall n t, In (n, t) (wRes w') -> In (n, t) (wRes w) \/ resOK (ctxOf w' used (H ++ K)) (wProcs w') n t) ->
  (forall n t, In (n, t) (wPings w') -> In (n, t) (wPings w) \/ pingOK (ctxOf w' used (H ++ K)) (wProcs w') n t) ->
  (forall n t, In (n, t) (wPongs w') -> In (n, t) (wPongs w) \/ pongOK (ctxOf w' used (H ++ K)) (wProcs w') n t) ->
  Inv w' used (H ++ K).
Proof.
  intros [I1 I2 I3 I4 I5 I6 I7] EU EL EN EX EP K1 K2 K3 K4 PX M1 M2 M3 M4.
  assert (G : grows (ctxOf w used H) (ctxOf w' used (H ++ K)) K).
  { unfold grows, ctxOf; cbn. rewrite EL. split; [assumption|]. split; [|auto].
    intros l E. exists l. split; [assumption|lia]. }
  assert (ST : stays (ctxOf w used H) (wProcs w) (wProcs w')).
  { intros j Q' E. rewrite EP in E. destruct (Nat.eq_dec j i) as [-> |NE].
    - rewrite setProc_eq in E. destruct (PX _ E) as [_ D]. exact D.
    - rewrite setProc_ne in E by assumption. left. exists Q'. auto. }
  constructor.
  - congruence.
  - eapply (histOK_mono _ _ K i G); cbn; try assumption; try reflexivity.
    + intros t q p v l J. destruct (K4 _ _ _ _ _ J) as (_ & Z). exact Z.
    + intros t j v l J. destruct (K3 _ _ _ _ J) as [-> Z]. exact Z.
  - intros j P E. rewrite EP in E. destruct (Nat.eq_dec j i) as [-> |NE].
    + rewrite setProc_eq in E. destruct (PX _ E). assumption.
    + rewrite setProc_ne in E by assumption.
      eapply (procOK_mono _ _ K j P G).
      * intros e O. destruct (no_own _ _ _ K1 O).
      * intros v l S. destruct (K2 _ _ S) as [S'|[O _]]; [left; exact S'|right].
        cbn. rewrite own_app. intros [O'|O']; [|destruct (no_own _ _ _ K1 O')].
        apply NE. exact (ho_one _ I2 _ _ _ O' O).
      * intros t v l J. apply NE. destruct (K3 _ _ _ _ J). assumption.
      * intros t p v l J. apply NE. destruct (K4 _ _ _ _ _ J). assumption.
      * auto.
  - intros n t J. destruct (M1 _ _ J) as [J'|J']; [|assumption]. eapply tktOK_mono; eauto.
  - intros n t J. destruct (M2 _ _ J) as [J'|J']; [|assumption]. eapply resOK_mono; eauto.
  - intros n t J. destruct (M3 _ _ J) as [J'|J']; [|assumption]. eapply pingOK_mono; eauto.
  - intros n t J. destruct (M4 _ _ J) as [J'|J']; [|assumption]. eapply pongOK_mono; eauto.
Qed.

(** A process whose list and version stay. *)
Lemma procOK_light c c' K i P P' :
  grows c c' K -> procOK c i P ->
  (forall t e j, ~ In (t, OEpoch e j) K) -> (forall v l, shown K v l -> shown (xH c) v l) ->
  (forall t v l, ~ In (t, OUp i v l) K) -> (forall t p v l, ~ In (t, OAns i p v l) K) ->
  cName P' = cName P -> cAddr P' = cAddr P -> cVers P' = cVers P -> cList P' = cList P ->
  (cState P' = Am -> cState P = Am \/ own (xH c) (vEpoch (cVers P)) i \/ vUntil (cVers P) < xNow c') ->
  (forall n, serial (cWait P') n -> (n < xNext c')%nat) ->
  (forall n l, cWait P' = WCas n l -> l = contend i P') -> (forall n, cWait P' = WRenew n -> cWait P = WRenew n) ->
  (forall q a, cConn P' = Some (q, a) -> exists nm, In (q, nm) (xUsed c') /\ nm <> cName P) ->
  (forall n b, cWait P' = WPing n b -> cState P' <> Am) ->
  procOK c' i P'.
Proof.
  intros G O K1 K2 K3 K4 E1 E2 E3 E4 S1 W1 W2 W3 C1 PW.
  assert (O' : procOK c' i P).
  { eapply (procOK_mono _ _ K i P G); auto.
    intros e F. destruct (no_own _ _ _ K1 F). }
  destruct O' as [A1 A2 A3 A4 A5 A6 A7 A8 A8b A9 A10 A11 A11b A12 A13 A14].
  constructor; rewrite ?E1, ?E2, ?E3, ?E4; auto.
  - intro Z. destruct (S1 Z) as [Z'|[Z'|Z']]; [auto|left; eapply grows_own; eassumption|auto].
  - intros n Z. eauto.
Qed.

(** A process that takes a version and a list. *)
Lemma procOK_set c c' K i P P' v l :
  grows c c' K -> histOK c -> procOK c i P ->
  (forall t e j, ~ In (t, OEpoch e j) K) ->
  (forall v' l', shown K v' l' -> shown (xH c) v' l' \/ (v' = v /\ l' = l)) ->
  (forall t v' l', In (t, OUp i v' l') K -> v' = v) ->
  (forall t p v' l', In (t, OAns i p v' l') K -> v' = v /\ l' = l) ->
  cName P' = cName P -> cAddr P' = cAddr P -> cVers P' = v -> cList P' = l ->
  okL (xNow c') (xUsed c') l -> vle (cVers P) v ->
  (vUntil v = 0 \/ boundU c' (vUntil v)) -> (0 <= vEpoch v /\ (vEpoch v = 0 -> vUntil v = 0)) ->
  (vEpoch v = 0 \/ exists j, own (xH c) (vEpoch v) j) ->
  (lCzar l = None -> vEpoch v = 0) ->
  (own (xH c) (vEpoch v) i ->
     (lCzar l = Some (Det (cName P) i (cAddr P)) /\ getP (cName P) (lPeers l) = None) /\
     (forall v' l', shown (xH c) v' l' -> own (xH c) (vEpoch v') i -> sameVersion v' v -> contentOf l' = contentOf l) /\
     (vEpoch v = vEpoch (cVers P) -> forall m e', m <> cName P -> getP m (lPeers (cList P)) = Some e' ->
        (exists e'', getP m (lPeers l) = Some e'' /\ eUntil e' <= eUntil e'') \/ eUntil e' + drift < xNow c')) ->
  (cState P' = Am -> own (xH c) (vEpoch v) i \/ vUntil v < xNow c') ->
  (forall n, serial (cWait P') n -> (n < xNext c')%nat) ->
  (forall n l0, cWait P' = WCas n l0 -> l0 = contend i P') ->
  (forall n, cWait P' = WRenew n -> lCzar l = Some (Det (cName P) i (cAddr P)) /\ getP (cName P) (lPeers l) = None) ->
  (forall q a, cConn P' = Some (q, a) -> exists nm, In (q, nm) (xUsed c') /\ nm <> cName P) ->
  (forall n b, cWait P' = WPing n b -> cState P' <> Am) ->
  procOK c' i P'.
Proof.
  intros G HO O K1 K2 K3 K4 E1 E2 E3 E4 OL LE UB ZE OE NO MINE AM W1 W2 W3 C1 PW.
  pose proof G as (G1 & G2 & G3 & G4 & G5).
  assert (OW : forall e j, own (xH c') e j <-> own (xH c) e j).
  { intros e j. rewrite G5, own_app. split; [intros [F|F]; [assumption|destruct (no_own _ _ _ K1 F)]|auto]. }
  destruct O as [A1 A2 A3 A4 A5 A6 A7 A8 A8b A9 A10 A11 A11b A12 A13 A14].
  constructor; rewrite ?E1, ?E2, ?E3, ?E4; auto.
  - destruct OE as [Z|[j Z]]; [auto|right; exists j; apply OW; exact Z].
  - rewrite OW. intro Z. apply MINE. exact Z.
  - rewrite OW. exact AM.
  - intros v' l' S Z. rewrite OW in Z.
    assert (S' : shown (xH c) v' l' \/ (v' = v /\ l' = l)).
    { rewrite G5, shown_app in S. destruct S as [S|S]; auto. }
    destruct S' as [S'|[-> ->]]; [|split; [apply vle_refl|auto]].
    destruct (A12 _ _ S' Z) as [L _]. split; [eapply vle_trans; eassumption|].
    intro SV. assert (EE : vEpoch v' = vEpoch v) by (destruct SV; assumption).
    rewrite EE in Z. destruct (MINE Z) as (_ & F & _). apply (F v' l'); auto. rewrite EE. exact Z.
  - intros t v' l' J. rewrite G5 in J. apply in_app_or in J. destruct J as [J|J].
    + eapply vle_trans; [eapply A13; exact J|exact LE].
    + rewrite (K3 _ _ _ J). apply vle_refl.
  - intros t p v' l' m e J EV EG NE. rewrite G5 in J. apply in_app_or in J. destruct J as [J|J].
    + destruct (ho_ans _ HO _ _ _ _ _ J) as (Z & _).
      assert (S : shown (xH c) v' l') by (exists t; right; eauto).
      destruct (A12 _ _ S Z) as [L _].
      rewrite EV in Z. destruct (MINE Z) as (_ & _ & F).
      assert (EE : vEpoch v = vEpoch (cVers P)) by (unfold vle in *; lia).
      destruct (A14 _ _ _ _ _ _ J (eq_trans EV EE) EG NE) as [(e' & B1 & B2)|B]; [|right; lia].
      destruct (F EE m e' NE B1) as [(e'' & C3 & C2)|B]; [left; exists e''; split; [assumption|lia]|right; lia].
    + destruct (K4 _ _ _ _ J) as [-> ->]. left. exists e. split; [assumption|lia].
Qed.
End Inv.
