(** What one entry does to one key, histories, and sorted stores. *)
From Coq Require Import List ZArith Lia Bool Sorted.
From Verif Require Import Base Kv_Model Kv_Spec Kv_Proofs.
Import ListNotations.
Open Scope Z_scope.

Lemma mget_rename : forall (s : store) tab new x tab' key', mget new s = None -> mget tab s = Some x -> new <> tab ->
  findLeaf (mdel tab (mput new x s)) tab' key' =
  if beqb tab' tab then None else if beqb tab' new then mget key' x else findLeaf s tab' key'.
Proof.
  intros. unfold findLeaf. rewrite mget_mdel, mget_mput. destruct (beqb tab' tab); auto. destruct (beqb tab' new); auto.
Qed.

(** One entry: a key that is there stays as it is, goes, or is written by a
    write to it. *)
Inductive vstep (drift now : Z) (s : store) (t : ticket) (tab key : bytes) (l : leaf) (s' : store) (t' : ticket) : Prop :=
| V_same : findLeaf s' tab key = Some l -> (tErr t = None -> ~ Wrote tab key t t') -> vstep drift now s t tab key l s' t'
| V_gone : findLeaf s' tab key = None -> ~ IsWrite t -> vstep drift now s t tab key l s' t'
| V_wrote l' : findLeaf s' tab key = Some l' -> IsWrite t -> Targets t tab key -> tErr t' = tErr t -> Written t (Some l) l' ->
    iEpoch (tInfo t') = lEpoch l' -> iIndex (tInfo t') = lIndex l' -> vstep drift now s t tab key l s' t'.

Lemma apply_vstep : forall drift now s t s' t' tab key l, tab <> dead -> findLeaf s tab key = Some l ->
  apply drift now s t = Ok (s', t') -> vstep drift now s t tab key l s' t'.
Proof.
  intros drift now s t s' t' tab key l N F H.
  destruct (isWrite_dec t) as [W|W].
  - pose proof (write_inv _ _ _ _ _ _ W H) as [(-> & E & _)|(E & _ & _ & l' & -> & Wr & E1 & E2)].
    + apply V_same; auto. intros _ (_ & _ & X). contradiction.
    + destruct (beqb_spec (qTable (tReq t)) tab) as [T|T]; [destruct (beqb_spec (qKey (tReq t)) key) as [K|K]|].
      * subst tab key. rewrite F in Wr. eapply V_wrote; eauto; [apply find_put_same|split; reflexivity].
      * apply V_same; [|intros _ (_ & (_ & X) & _); contradiction]. rewrite find_put_other; auto. congruence.
      * apply V_same; [|intros _ (_ & (X & _) & _); contradiction]. rewrite find_put_other; auto. congruence.
  - assert (NW : tErr t = None -> ~ Wrote tab key t t') by (intros _ (X & _); contradiction).
    assert (OK : findLeaf s' tab key = Some l \/ findLeaf s' tab key = None).
    { unfold apply in H. destruct (qOp (tReq t)) eqn:O.
      - exfalso. apply W. now left.
      - exfalso. apply W. now right.
      - injection H as <- <-. left. unfold doMakeTable. destruct (qTable (tReq t)) as [|x q]; auto.
        destruct (mget (x :: q) s) eqn:M; auto. unfold findLeaf in *. rewrite mget_mput.
        destruct (beqb_spec tab (x :: q)) as [->|]; auto. rewrite M in F. discriminate.
      - injection H as <- <-. unfold doDeleteTable. destruct (qTable (tReq t)) as [|x q]; auto.
        unfold findLeaf in *. rewrite mget_mdel. destruct (beqb tab (x :: q)); auto.
      - injection H as H. unfold doRenameTable in H. destruct s as [|p s0]; [discriminate|].
        remember (p :: s0) as s eqn:Es. clear Es.
        destruct (qTable (tReq t)) as [|x q]; [injection H as <- <-; auto|].
        destruct (qNewTable (tReq t)) as [|x' q']; [injection H as <- <-; auto|].
        destruct (beqb_spec (x' :: q') (x :: q)) as [E|E]; [injection H as <- <-; auto|].
        destruct (mget (x' :: q') s) eqn:M; [injection H as <- <-; auto|].
        destruct (mget (x :: q) s) eqn:M'; injection H as <- <-; auto.
        rewrite mget_rename by auto. destruct (beqb tab (x :: q)); auto.
        destruct (beqb_spec tab (x' :: q')) as [->|]; auto. unfold findLeaf in F. rewrite M in F. discriminate.
      - injection H as H. unfold doDeleteKey in H. destruct (mget (qTable (tReq t)) s) as [m|]; [|injection H as <- <-; auto].
        destruct (readLeaf now s (qTable (tReq t)) (qKey (tReq t))) as (s1, o) eqn:R.
        pose proof (readLeaf_view _ _ _ _ _ _ tab key N R) as V.
        assert (V' : findLeaf s1 tab key = Some l \/ findLeaf s1 tab key = None)
          by (destruct V as [->|(-> & _)]; auto).
        assert (D : findLeaf (delLeaf s1 (qTable (tReq t)) (qKey (tReq t))) tab key = Some l \/
                    findLeaf (delLeaf s1 (qTable (tReq t)) (qKey (tReq t))) tab key = None)
          by (rewrite find_del; destruct (beqb tab (qTable (tReq t)) && beqb key (qKey (tReq t))); auto).
        destruct o as [l0|]; [|injection H as <- <-; auto].
        destruct (noLease l0); [injection H as <- <-; auto|].
        destruct (beqb (lLeasor l0) (iLeasor (tInfo t))); [injection H as <- <-; auto|].
        destruct (lUntil l0 + drift <? qTm (tReq t)); injection H as <- <-; auto.
      - injection H as H. apply showKeys_state in H as [->|(m & seen & r & up & _ & _ & H)]; auto.
        eapply scan_view with (key' := key) in H; [|exact N]. rewrite find_ensureDead, F in H. destruct H as [H|(H & _)]; auto.
      - injection H as H. unfold doReadKey in H. destruct (readLeaf now s (qTable (tReq t)) (qKey (tReq t))) as (s1, o) eqn:R.
        pose proof (readLeaf_view _ _ _ _ _ _ tab key N R) as V.
        destruct o; injection H as <- <-; (destruct V as [->|(-> & _)]; auto).
      - injection H as H. apply rangeScan_state in H as [->|(m & seen & r & up & _ & _ & H)]; auto.
        eapply scan_view with (key' := key) in H; [|exact N]. rewrite find_ensureDead, F in H. destruct H as [H|(H & _)]; auto.
      - injection H as H. apply prefixScan_state in H as [->|(m & seen & r & up & _ & _ & H)]; auto.
        eapply scan_view with (key' := key) in H; [|exact N]. rewrite find_ensureDead, F in H. destruct H as [H|(H & _)]; auto.
      - injection H as <- <-. auto. }
    destruct OK as [E|E]; [now apply V_same|now apply V_gone].
Qed.

Definition ident (l : leaf) := (lLeasor l, lPeer l).

Lemma history_mono : forall drift tab key s s' n l, tab <> dead -> history drift tab key s s' n -> findLeaf s tab key = Some l ->
  exists l', findLeaf s' tab key = Some l' /\ 0 <= n /\
    lVersion l' = lVersion l + n /\ lEpoch l <= lEpoch l' /\ lIndex l + n <= lIndex l' /\
    (ident l' <> ident l -> lEpoch l < lEpoch l') /\ (n = 0 -> l' = l).
Proof.
  intros drift tab key s s' n l N H. revert l.
  induction H as [s|s now t s1 t1 s2 n A E P W H IH|s now t s1 t1 s2 n A E P W H IH]; intros l F.
  - exists l. repeat split; auto; try lia. intros X; contradiction.
  - pose proof (apply_vstep _ _ _ _ _ _ _ _ _ N F A) as [F1 X|F1 X|l1 F1 X T X1 Wr _ _].
    + exfalso. now apply X.
    + contradiction.
    + destruct (IH _ F1) as (l' & F' & Pn & V & Ep & Ix & Id & Z0). exists l'. split; auto. split; [lia|].
      pose proof (w_version _ _ _ Wr) as WV. pose proof (w_epoch _ _ _ Wr) as (WI & WE). cbn beta iota in WV, WI, WE.
      split; [lia|]. split; [destruct WE as [(WE & _)|(WE & _)]; lia|]. split; [lia|]. split; [|lia].
      intros D. destruct WE as [(WE & _)|(WE & _ & (Hn & Hp) & _)]; [lia|].
      assert (D1 : ident l' <> ident l1).
      { intros D1. apply D. rewrite D1. unfold ident. rewrite (w_leasor _ _ _ Wr), (w_peer _ _ _ Wr). congruence. }
      apply Id in D1. lia.
  - pose proof (apply_vstep _ _ _ _ _ _ _ _ _ N F A) as [F1 X|F1 X|l1 F1 X T X1 Wr _ _].
    + destruct (IH _ F1) as (l' & F' & R). exists l'. auto.
    + contradiction.
    + exfalso. apply W. split; auto. split; auto. congruence.
Qed.

(** Sorted keys. *)
Lemma bcmp_antisym : forall a b, bcmp b a = CompOpp (bcmp a b).
Proof.
  induction a as [|x a IH]; destruct b as [|y b]; cbn [bcmp CompOpp]; auto.
  rewrite (Z.compare_antisym x y). destruct (x ?= y); cbn [CompOpp]; auto.
Qed.
Lemma Blt_trans : forall a b c, Blt a b -> Blt b c -> Blt a c.
Proof.
  unfold Blt. induction a as [|x a IH]; destruct b as [|y b], c as [|z c]; cbn [bcmp]; intros H1 H2; try discriminate; auto.
  destruct (Z.compare_spec x y) as [E1|E1|E1]; try discriminate; destruct (Z.compare_spec y z) as [E2|E2|E2]; try discriminate;
    destruct (Z.compare_spec x z) as [E3|E3|E3]; try lia; auto. eauto.
Qed.
Lemma Blt_irrefl : forall a, ~ Blt a a.
Proof. intros a H. unfold Blt in H. rewrite bcmp_refl in H. discriminate. Qed.
Lemma bcmp_gt : forall a b, bcmp a b = Gt -> Blt b a.
Proof. intros a b H. unfold Blt. rewrite bcmp_antisym, H. reflexivity. Qed.

Section S.
Context {A : Type}.
Implicit Types m : list (bytes * A).
Lemma mput_keys : forall k (v : A) m x, In x (map fst (mput k v m)) -> x = k \/ In x (map fst m).
Proof.
  induction m as [|(k0, v0) m IH]; cbn [mput map fst]; intros x I.
  - destruct I as [<-|[]]; auto.
  - destruct (bcmp k k0) eqn:E; cbn [map fst] in I.
    + destruct I as [<-|I]; auto. right. now right.
    + destruct I as [<-|[<-|I]]; auto; right; [now left|now right].
    + destruct I as [<-|I]; [right; now left|]. apply IH in I as [->|I]; auto. right. now right.
Qed.
Lemma sorted_mput : forall k (v : A) m, SortedKeys m -> SortedKeys (mput k v m).
Proof.
  unfold SortedKeys. induction m as [|(k0, v0) m IH]; intros H; cbn [mput].
  - cbn [map fst]. constructor; constructor.
  - cbn [map fst] in H. inversion H as [|? ? H1 H2]; subst. destruct (bcmp k k0) eqn:E; cbn [map fst].
    + apply bcmp_eq in E as ->. now constructor.
    + constructor; [now constructor|]. constructor; [exact E|]. eapply Forall_impl; [|exact H2]. intros x Hx. eapply Blt_trans; eauto.
    + constructor; [now apply IH|]. apply Forall_forall. intros x I. apply mput_keys in I as [->|I].
      * now apply bcmp_gt.
      * now apply (proj1 (Forall_forall _ _) H2).
Qed.
Lemma mdel_keys : forall k m x, In x (map fst (mdel k m)) -> In x (map fst m).
Proof.
  induction m as [|(k0, v0) m IH]; cbn [mdel map fst]; intros x I; auto.
  destruct (beqb k k0); [right; auto|]. destruct I as [<-|I]; [now left|right; auto].
Qed.
Lemma sorted_mdel : forall k m, SortedKeys m -> SortedKeys (mdel k m).
Proof.
  unfold SortedKeys. induction m as [|(k0, v0) m IH]; intros H; cbn [mdel]; auto.
  cbn [map fst] in H. inversion H as [|? ? H1 H2]; subst. destruct (beqb k k0); auto.
  cbn [map fst]. constructor; auto. apply Forall_forall. intros x I. apply mdel_keys in I.
  now apply (proj1 (Forall_forall _ _) H2).
Qed.
Lemma sorted_get : forall m k v, SortedKeys m -> In (k, v) m -> mget k m = Some v.
Proof.
  unfold SortedKeys. induction m as [|(k0, v0) m IH]; intros k v H I; [contradiction|].
  cbn [map fst] in H. inversion H as [|? ? H1 H2]; subst. cbn [mget]. destruct I as [[= -> ->]|I].
  - now rewrite beqb_refl.
  - destruct (beqb_spec k k0) as [->|N]; auto. exfalso.
    apply (Blt_irrefl k0). apply (proj1 (Forall_forall _ _) H2). now apply (in_map fst) in I.
Qed.
Lemma get_in : forall m k v, mget k m = Some v -> In (k, v) m.
Proof.
  induction m as [|(k0, v0) m IH]; intros k v H; cbn [mget] in H; [discriminate|].
  destruct (beqb_spec k k0) as [->|N]; [injection H as ->; now left|right; auto].
Qed.
End S.

Lemma wf_mput : forall s tab (m : table), WfStore s -> SortedKeys m -> WfStore (mput tab m s).
Proof.
  intros s tab m (H1 & H2) Hm. split; [now apply sorted_mput|]. intros tab' m' E. rewrite mget_mput in E.
  destruct (beqb tab' tab); [injection E as <-; auto|eauto].
Qed.
Lemma wf_mdel : forall s tab, WfStore s -> WfStore (mdel tab s).
Proof.
  intros s tab (H1 & H2). split; [now apply sorted_mdel|]. intros tab' m' E. rewrite mget_mdel in E.
  destruct (beqb tab' tab); [discriminate|eauto].
Qed.
Lemma sorted_nil : forall A, @SortedKeys A [].
Proof. intros. constructor. Qed.
Lemma wf_put : forall s tab key l, WfStore s -> WfStore (putLeaf s tab key l).
Proof.
  intros s tab key l H. apply wf_mput; auto. apply sorted_mput. destruct (mget tab s) eqn:E; [now apply (proj2 H tab)|apply sorted_nil].
Qed.
Lemma wf_del : forall s tab key, WfStore s -> WfStore (delLeaf s tab key).
Proof.
  intros s tab key H. unfold delLeaf. destruct (mget tab s) eqn:E; auto. apply wf_mput; auto. apply sorted_mdel. now apply (proj2 H tab).
Qed.
Lemma wf_ensure : forall s, WfStore s -> WfStore (ensureDead s).
Proof. intros s H. unfold ensureDead. destruct (mget dead s); auto. apply wf_mput; auto. apply sorted_nil. Qed.
Lemma wf_bury : forall tab key l s, WfStore s -> WfStore (bury tab key l s).
Proof. intros. unfold bury. now apply wf_del, wf_put, wf_ensure. Qed.
Lemma wf_scan : forall now up tab ls s s' r, WfStore s -> scanLoop now up tab ls s = (s', r) -> WfStore s'.
Proof.
  induction ls as [|(k, l) ls IH]; intros s s' r W H; cbn [scanLoop] in H; [injection H as <- <-; auto|].
  destruct (autoDeletes now tab l).
  - destruct (up && lost k _); [injection H as <- <-; now apply wf_bury|]. eapply IH; [|exact H]. now apply wf_bury.
  - destruct (scanLoop now up tab ls s) as (s1, r1) eqn:E. injection H as <- <-. eauto.
Qed.
Lemma wf_read : forall now s tab key s' o, WfStore s -> readLeaf now s tab key = (s', o) -> WfStore s'.
Proof.
  intros now s tab key s' o W H. unfold readLeaf in H. destruct (findLeaf s tab key) as [l|]; [|injection H as <- <-; auto].
  destruct (autoDeletes now tab l); injection H as <- <-; auto. now apply wf_bury.
Qed.

Lemma wf_apply : forall drift now s t s' t', WfStore s -> apply drift now s t = Ok (s', t') -> WfStore s'.
Proof.
  intros drift now s t s' t' W H.
  destruct (isWrite_dec t) as [I|I].
  { pose proof (write_inv _ _ _ _ _ _ I H) as [(-> & _)|(_ & _ & _ & l' & -> & _)]; auto. now apply wf_put. }
  unfold apply in H. destruct (qOp (tReq t)) eqn:O.
  - exfalso. apply I. now left.
  - exfalso. apply I. now right.
  - injection H as <- <-. unfold doMakeTable. destruct (qTable (tReq t)); auto. destruct mget; auto. apply wf_mput; auto. apply sorted_nil.
  - injection H as <- <-. unfold doDeleteTable. destruct (qTable (tReq t)); auto. now apply wf_mdel.
  - injection H as H. unfold doRenameTable in H. destruct s as [|p s0]; [injection H as <- <-; auto|].
    remember (p :: s0) as s eqn:Es. clear Es.
    destruct (qTable (tReq t)) as [|x q]; [injection H as <- <-; auto|].
    destruct (qNewTable (tReq t)) as [|x' q']; [injection H as <- <-; auto|].
    destruct (beqb (x' :: q') (x :: q)); [injection H as <- <-; auto|].
    destruct (mget (x' :: q') s); [injection H as <- <-; auto|].
    destruct (mget (x :: q) s) eqn:E; injection H as <- <-; auto. apply wf_mdel, wf_mput; auto. now apply (proj2 W (x :: q)).
  - injection H as H. unfold doDeleteKey in H. destruct (mget (qTable (tReq t)) s) as [m|]; [|injection H as <- <-; auto].
    destruct (readLeaf now s (qTable (tReq t)) (qKey (tReq t))) as (s1, o) eqn:R. pose proof (wf_read _ _ _ _ _ _ W R) as W1.
    pose proof (wf_del s1 (qTable (tReq t)) (qKey (tReq t)) W1) as W2.
    destruct o as [l0|]; [|injection H as <- <-; auto].
    destruct (noLease l0); [injection H as <- <-; auto|].
    destruct (beqb (lLeasor l0) (iLeasor (tInfo t))); [injection H as <- <-; auto|].
    destruct (lUntil l0 + drift <? qTm (tReq t)); injection H as <- <-; auto.
  - injection H as H. apply showKeys_state in H as [->|(m & seen & r & up & _ & _ & H)]; auto. eapply wf_scan; [|exact H]. now apply wf_ensure.
  - injection H as H. unfold doReadKey in H. destruct (readLeaf now s (qTable (tReq t)) (qKey (tReq t))) as (s1, o) eqn:R.
    pose proof (wf_read _ _ _ _ _ _ W R). destruct o; injection H as <- <-; auto.
  - injection H as H. apply rangeScan_state in H as [->|(m & seen & r & up & _ & _ & H)]; auto. eapply wf_scan; [|exact H]. now apply wf_ensure.
  - injection H as H. apply prefixScan_state in H as [->|(m & seen & r & up & _ & _ & H)]; auto. eapply wf_scan; [|exact H]. now apply wf_ensure.
  - injection H as <- <-. auto.
Qed.

Lemma wf_applyAll : forall drift log clock s s' out, WfStore s -> applyAll drift clock s log = Ok (s', out) -> WfStore s'.
Proof.
  induction log as [|t log IH]; intros clock s s' out W H; cbn [applyAll] in H; [injection H as <- <-; auto|]. unfold bind in H.
  destruct (apply drift (hd 0 clock) s t) as [(s1, t1)|] eqn:A; [|discriminate]. cbn [fst] in H.
  destruct (applyAll drift (tl clock) s1 log) as [(s2, o2)|] eqn:B; [|discriminate]. injection H as <- <-. cbn [fst].
  eapply IH; [|exact B]. eapply wf_apply; eauto.
Qed.
