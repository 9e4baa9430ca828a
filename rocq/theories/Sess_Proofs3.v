(** * Sessions: one session per client name, until a restart *)

From Coq Require Import ZArith List Bool Lia.
From Verif Require Import Sess_Model Sess_Spec Sess_Proofs.
Import ListNotations.
Local Open Scope Z_scope.

Section SessClient.
Context {St Op Rep : Type}.
Variable wr : Op -> St -> St * Rep.
Variable rd : Op -> St -> Rep.
Variable lf : Op -> St -> option Rep.
Variable x0 : St.

Notation tkt := (@tkt Op).
Notation entry := (@entry Op).
Notation node := (@node St Rep).
Notation ste := (@ste Rep).
Notation event := (@event Op).

(** the map by client name knows every session of the table. *)
Definition cl (n : node) : Prop :=
  forall sid o, aget sid (nTab n) = Some o ->
    (o < length (nHeap n))%nat /\ eSid (hget (nHeap n) o) = sid /\
    aget (eClient (hget (nHeap n) o)) (nByc n) = Some o.

Lemma cl_unique n sid sid' o o' :
  cl n -> aget sid (nTab n) = Some o -> aget sid' (nTab n) = Some o' ->
  eClient (hget (nHeap n) o) = eClient (hget (nHeap n) o') -> sid = sid'.
Proof.
  intros HC H1 H2 HE. destruct (HC _ _ H1) as (_ & E1 & B1). destruct (HC _ _ H2) as (_ & E2 & B2).
  rewrite HE, B2 in B1. injection B1 as ->. congruence.
Qed.

Lemma gcLoop_cl lnow (h : list ste) tree : forall tab byc tree' tab' byc' sid o,
  gcLoop lnow h tree tab byc = (tree', tab', byc') ->
  eSid (hget h o) = sid -> aget (eClient (hget h o)) byc = Some o ->
  aget sid tab' = Some o -> aget (eClient (hget h o)) byc' = Some o.
Proof.
  induction tree as [|x tree IH]; intros tab byc tree' tab' byc' sid o HG HE HB HA; cbn [gcLoop] in HG.
  - injection HG as <- <- <-. assumption.
  - destruct (lnow <? eEndx (hget h x)).
    + injection HG as <- <- <-. assumption.
    + eapply IH; [exact HG|exact HE| |exact HA].
      apply (gcLoop_sub _ _ _ _ _ _ _ _ _ _ HG) in HA. apply aget_adel_some in HA.
      destruct HA as [HN HA]. unfold dropClient.
      destruct (aget (eClient (hget h x)) byc) as [p|] eqn:E; [|exact HB].
      destruct (eSid (hget h p) =? eSid (hget h x)) eqn:E2; [|exact HB].
      rewrite aget_adel. destruct (eClient (hget h o) =? eClient (hget h x)) eqn:E3; [|exact HB].
      apply Z.eqb_eq in E3. rewrite <- E3, HB in E. injection E as <-. lia.
Qed.

Lemma cl_gc lnow n : cl n -> cl (gc lnow n).
Proof.
  intros HC sid o HA. pose proof (gc_sub _ _ _ _ HA) as HA0.
  destruct (HC _ _ HA0) as (HL & HE & HB). destruct (gc_same lnow n) as (EH & _).
  rewrite EH. split; [exact HL|]. split; [exact HE|].
  unfold gc in HA |- *. destruct (gcLoop _ _ _ _ _) as [[tr ta] by'] eqn:E. cbn [nTab nByc] in *.
  eapply gcLoop_cl; eassumption.
Qed.

Lemma cl_onSte n o f :
  (o < length (nHeap n))%nat ->
  (forall s, eSid (f s) = eSid s) -> (forall s, eClient (f s) = eClient s) ->
  cl n -> cl (onSte o f n).
Proof.
  intros HL HS HCl HC sid o' HA. rewrite onSte_tab in HA.
  destruct (HC _ _ HA) as (HL' & HE & HB). rewrite hget_onSte by assumption.
  change (nByc (onSte o f n)) with (nByc n).
  split; [cbn [onSte setHeap nHeap]; rewrite hset_length; exact HL'|].
  destruct (o' =? o)%nat eqn:E; [|auto].
  apply Nat.eqb_eq in E. subst o'. rewrite HS, HCl. auto.
Qed.

Lemma cl_setTree n t : cl n -> cl (setTree t n).
Proof. intros HC. exact HC. Qed.

Lemma cl_refresh n o from :
  (o < length (nHeap n))%nat -> cl n -> cl (refreshSession from o n).
Proof.
  intros HL HC. rewrite refresh_as_onSte. apply cl_setTree, cl_onSte; [exact HL|reflexivity|reflexivity|exact HC].
Qed.

Lemma cl_setTab_del n sid : cl n -> cl (setTab (adel sid (nTab n)) n).
Proof.
  intros HC s o HA. cbn [setTab nTab] in HA. apply aget_adel_some in HA. apply HC, HA.
Qed.

Lemma cl_end sid n : cl n -> cl (applyEndSess sid n).
Proof.
  intros HC. unfold applyEndSess, lookup. destruct (aget sid (nTab n)) as [o0|] eqn:E0; [|assumption].
  destruct (HC _ _ E0) as (HL0 & HE0 & HB0).
  intros s o HA. cbn [nTab nHeap nByc setByc nSt nLast nTree] in *. apply aget_adel_some in HA. destruct HA as [HN HA].
  destruct (HC _ _ HA) as (HL & HE & HB). split; [exact HL|]. split; [exact HE|].
  unfold dropClient. rewrite HB0, HE0, Z.eqb_refl, aget_adel.
  destruct (_ =? _) eqn:E; [|exact HB].
  apply Z.eqb_eq in E. rewrite E, HB0 in HB. injection HB as ->. congruence.
Qed.

Lemma cl_new r n : cl n -> cl (applyNewSess r n).
Proof.
  intros HC. unfold applyNewSess. destruct (aget (rqSid r) (nTab n)) as [o0|] eqn:E0; [assumption|].
  set (o := length (nHeap n)). set (h := nHeap n ++ [newSte r]).
  unfold updateByClient. cbn [nHeap scanClients].
  assert (Ho : hget h o = newSte r) by apply hget_app_len. rewrite Ho.
  cbn [newSte eClient eT0 nByc].
  assert (Hold : forall sid o', aget sid (nTab n) = Some o' ->
            (o' < length h)%nat /\ hget h o' = hget (nHeap n) o' /\ o' <> o /\ sid <> rqSid r).
  { intros sid o' HA. destruct (HC _ _ HA) as (HL & _). unfold h.
    rewrite app_length, hget_app_l by assumption. cbn [length].
    split; [lia|]. split; [reflexivity|]. split; [unfold o; lia|]. congruence. }
  assert (Hlen : (o < length h)%nat) by (unfold h, o; rewrite app_length; cbn; lia).
  (* the goner, when there is one *)
  assert (Hdone : forall g (p : nat),
    fold_left dropGoner [g] (setByc (aset (rqClient r) p (nByc n))
      (mkNode h (aset (rqSid r) o (nTab n)) (nByc n) (treeIns h o (nTree n)) (nSt n) (nLast n)))
    = mkNode h (adel (eSid (hget h g)) (aset (rqSid r) o (nTab n)))
        (aset (rqClient r) p (nByc n)) (treeDel h g (treeIns h o (nTree n))) (nSt n) (nLast n))
    by reflexivity.
  destruct (aget (rqClient r) (nByc n)) as [p|] eqn:EP.
  - destruct (p =? o)%nat eqn:Epo.
    + (* cannot be: names nothing yet; still consistent *)
      apply Nat.eqb_eq in Epo. subst p. cbn [fold_left setByc].
      intros sid o' HA. cbn [nTab nHeap nByc setByc nSt nLast nTree] in *. rewrite aget_aset in HA.
      destruct (sid =? rqSid r) eqn:E.
      * injection HA as <-. rewrite Ho. apply Z.eqb_eq in E. subst sid.
        split; [exact Hlen|]. split; [reflexivity|]. cbn [newSte eClient]. rewrite aget_aset, Z.eqb_refl. reflexivity.
      * destruct (HC _ _ HA) as (HL & HE & HB). destruct (Hold _ _ HA) as (HL' & Hh & HN & _).
        rewrite Hh. split; [exact HL'|]. split; [exact HE|].
        rewrite aget_aset. destruct (_ =? rqClient r) eqn:E2; [|exact HB].
        apply Z.eqb_eq in E2. rewrite E2, EP in HB. injection HB as <-. congruence.
    + destruct (rqT0 r <=? eT0 (hget h p)).
      * cbn [app]. rewrite Hdone, Ho. cbn [newSte eSid].
        intros sid o' HA. cbn [nTab nHeap nByc setByc nSt nLast nTree] in *.
        apply aget_adel_some in HA. destruct HA as [HN HA]. rewrite aget_aset in HA.
        destruct (sid =? rqSid r) eqn:E; [lia|].
        destruct (HC _ _ HA) as (HL & HE & HB). destruct (Hold _ _ HA) as (HL' & Hh & _).
        rewrite Hh. split; [exact HL'|]. split; [exact HE|].
        rewrite aget_aset. destruct (_ =? rqClient r) eqn:E2; [|exact HB].
        apply Z.eqb_eq in E2. rewrite E2, EP in HB. exact HB.
      * cbn [app]. rewrite Hdone.
        intros sid o' HA. cbn [nTab nHeap nByc setByc nSt nLast nTree] in *.
        apply aget_adel_some in HA. destruct HA as [HN HA]. rewrite aget_aset in HA.
        destruct (sid =? rqSid r) eqn:E.
        -- injection HA as <-. rewrite Ho. apply Z.eqb_eq in E. subst sid.
           split; [exact Hlen|]. split; [reflexivity|]. cbn [newSte eClient]. rewrite aget_aset, Z.eqb_refl. reflexivity.
        -- destruct (HC _ _ HA) as (HL & HE & HB). destruct (Hold _ _ HA) as (HL' & Hh & _).
           rewrite Hh. split; [exact HL'|]. split; [exact HE|].
           rewrite aget_aset. destruct (_ =? rqClient r) eqn:E2; [|exact HB].
           apply Z.eqb_eq in E2. rewrite E2, EP in HB. injection HB as <-.
           rewrite Hh in HN. congruence.
  - cbn [fold_left setByc].
    intros sid o' HA. cbn [nTab nHeap nByc setByc nSt nLast nTree] in *. rewrite aget_aset in HA.
    destruct (sid =? rqSid r) eqn:E.
    + injection HA as <-. rewrite Ho. apply Z.eqb_eq in E. subst sid.
      split; [exact Hlen|]. split; [reflexivity|]. cbn [newSte eClient]. rewrite aget_aset, Z.eqb_refl. reflexivity.
    + destruct (HC _ _ HA) as (HL & HE & HB). destruct (Hold _ _ HA) as (HL' & Hh & _).
      rewrite Hh. split; [exact HL'|]. split; [exact HE|].
      rewrite aget_aset. destruct (_ =? rqClient r) eqn:E2; [|exact HB].
      apply Z.eqb_eq in E2. congruence.
Qed.

Lemma cl_lookup n sid o s : cl n -> lookup sid n = Some (o, s) -> (o < length (nHeap n))%nat.
Proof.
  intros HC. unfold lookup. destruct (aget sid (nTab n)) as [o'|] eqn:E; [|discriminate].
  intros [= <- <-]. apply (HC _ _ E).
Qed.

Lemma cleanup_sid b (s : ste) : eSid (cleanupAcked b s) = eSid s.
Proof. apply cleanup_other. Qed.
Lemma cleanup_client b (s : ste) : eClient (cleanupAcked b s) = eClient s.
Proof. apply cleanup_other. Qed.

Lemma cl_apply lnow b (e : entry) n : cl n -> cl (fst (applyEntry wr rd lnow b e n)).
Proof.
  intros HC. unfold applyEntry. destruct (execOp wr rd (enT e) (nSt n)) as [x' r].
  set (n0 := setSt x' (setLast (S (nLast n)) n)). assert (HC0 : cl n0) by exact HC.
  assert (HC1 : cl (execSess lnow b (enT e) n0)).
  { unfold execSess. destruct (tKind (enT e)); try exact HC0.
    - destruct b; [apply cl_gc|]; apply cl_new, HC0.
    - destruct b; [apply cl_gc|]; apply cl_end, HC0. }
  set (n1 := execSess lnow b (enT e) n0) in *.
  destruct (_ =? 0); [apply cl_gc, HC1|].
  destruct (lookup (tSid (enT e)) n1) as [[o s]|] eqn:EL; [|exact HC1].
  pose proof (cl_lookup _ _ _ _ HC1 EL) as HLen.
  destruct (isEnd _); [apply cl_gc, HC1|]. cbn [fst]. apply cl_gc.
  assert (HK : cl (onSte o (keepTkt (enT e) (mkDone r (S (nLast n)))) n1)).
  { apply cl_onSte; [exact HLen| | |exact HC1]; intros s'; unfold keepTkt;
      destruct (_ <? _); rewrite ?cleanup_sid, ?cleanup_client; reflexivity. }
  assert (HLen2 : (o < length (nHeap (onSte o (keepTkt (enT e) (mkDone r (S (nLast n)))) n1)))%nat)
    by (cbn [onSte setHeap nHeap]; rewrite hset_length; exact HLen).
  destruct (isNew _); [exact HK|].
  apply cl_onSte; [|reflexivity|reflexivity|apply cl_refresh; [exact HLen2|exact HK]].
  cbn [refreshSession setTree setHeap nHeap]. rewrite hset_length. exact HLen2.
Qed.

Lemma cl_ask now (t : tkt) n : cl n -> cl (snd (doneEarly now t n)).
Proof.
  intros HC. unfold doneEarly. destruct (_ =? 0); [exact HC|]. destruct (negb _); [exact HC|].
  destruct (lookup (tSid t) n) as [[o s]|] eqn:EL; [|exact HC].
  pose proof (cl_lookup _ _ _ _ HC EL) as HLen.
  destruct (_ <? _); [exact HC|]. destruct (_ <=? _); [apply cl_setTree, cl_setTab_del, HC|].
  assert (HCl : cl (onSte o (cleanupAcked (tMin t)) n)).
  { apply cl_onSte; [exact HLen| | |exact HC]; intros; apply cleanup_other. }
  assert (HHi : cl (onSte o (fun s => cleanupAcked (tMin t)
                 (if eHigh s <? tSer t then setHigh (tSer t) s else s)) n)).
  { apply cl_onSte; [exact HLen| | |exact HC]; intros s';
      rewrite ?cleanup_sid, ?cleanup_client; destruct (_ <? _); reflexivity. }
  destruct (aget _ _); [exact HCl|].
  destruct (tKind t); try exact HHi; destruct (_ <=? _); assumption.
Qed.

Lemma cl_local now (t : tkt) n : cl n -> cl (snd (localRead rd lf now t n)).
Proof.
  intros HC. unfold localRead. destruct (_ =? 0); [destruct (localRep _ _ _ _); exact HC|].
  destruct (lookup (tSid t) n) as [[o s]|] eqn:EL; [|exact HC].
  pose proof (cl_lookup _ _ _ _ HC EL) as HLen.
  pose proof (cl_refresh n o now HLen HC) as HR.
  assert (HLen2 : (o < length (nHeap (refreshSession now o n)))%nat)
    by (cbn [refreshSession setTree setHeap nHeap]; rewrite hset_length; exact HLen).
  assert (HCl : cl (onSte o (cleanupAcked (tMin t)) (refreshSession now o n))).
  { apply cl_onSte; [exact HLen2| | |exact HR]; intros; apply cleanup_other. }
  destruct (aget _ _); [exact HCl|]. destruct (localRep _ _ _ _); [|exact HCl].
  apply cl_onSte; [exact HLen2| | |exact HR]; intros s';
    rewrite ?cleanup_sid, ?cleanup_client; cbn [setCache eSid eClient];
    destruct (_ <? _); reflexivity.
Qed.

Theorem cl_all (H : list event) :
  ~ In ERestart H -> cl (fold_left (fun n ev => step wr rd lf ev n) H (node0 x0)).
Proof.
  induction H as [|ev H IH] using rev_ind; intros HN.
  - intros sid o HA. discriminate HA.
  - rewrite fold_left_app. cbn [fold_left].
    assert (HC : cl (fold_left (fun n ev => step wr rd lf ev n) H (node0 x0))).
    { apply IH. intros HI. apply HN. apply in_or_app. auto. }
    destruct ev as [lnow b e|now t|now t|]; cbn [step].
    + apply cl_apply, HC.
    + apply cl_ask, HC.
    + apply cl_local, HC.
    + exfalso. apply HN, in_or_app. right. left. reflexivity.
Qed.

End SessClient.
