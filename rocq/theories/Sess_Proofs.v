(** * Sessions: the table operations keep what is known of each session *)

From Coq Require Import ZArith List Bool Lia Sorting.Permutation.
From Verif Require Import Sess_Model Sess_Spec.
Import ListNotations.
Local Open Scope Z_scope.

(** ** Association lists *)
Lemma aget_adel {V} k k' (l : list (Z * V)) :
  aget k' (adel k l) = if k' =? k then None else aget k' l.
Proof.
  induction l as [|[a v] l IH]; cbn [adel filter aget].
  - destruct (k' =? k); reflexivity.
  - cbn [fst]. destruct (a =? k) eqn:E; cbn [negb].
    + change (filter _ l) with (adel k l). rewrite IH.
      destruct (k' =? k) eqn:E2; [reflexivity|].
      destruct (a =? k') eqn:E3; [lia|reflexivity].
    + cbn [aget]. change (filter _ l) with (adel k l). rewrite IH.
      destruct (k' =? k) eqn:E2; [|reflexivity].
      destruct (a =? k') eqn:E3; [lia|reflexivity].
Qed.

Lemma aget_aset {V} k k' v (l : list (Z * V)) :
  aget k' (aset k v l) = if k' =? k then Some v else aget k' l.
Proof.
  unfold aset. cbn [aget]. rewrite aget_adel, (Z.eqb_sym k k').
  destruct (k' =? k); reflexivity.
Qed.

Lemma aget_adel_some {V} k k' (l : list (Z * V)) v :
  aget k' (adel k l) = Some v -> k' <> k /\ aget k' l = Some v.
Proof. rewrite aget_adel. destruct (k' =? k) eqn:E; [discriminate|]. split; [lia|assumption]. Qed.

Lemma aget_in {V} k (l : list (Z * V)) v : aget k l = Some v -> In (k, v) l.
Proof.
  induction l as [|[a w] l IH]; cbn [aget]; [discriminate|].
  destruct (a =? k) eqn:E.
  - intros [= ->]. left. f_equal. lia.
  - right. auto.
Qed.

(** ** Sorted maps from serial numbers *)
Inductive sorted {V} : list (Z * V) -> Prop :=
| so_nil : sorted []
| so_cons k v l : (forall k' v', In (k', v') l -> k < k') -> sorted l -> sorted ((k, v) :: l).

Lemma aget_above {V} k (l : list (Z * V)) :
  (forall k' v', In (k', v') l -> k < k') -> aget k l = None.
Proof.
  intros HB. destruct (aget k l) eqn:E; [|reflexivity].
  apply aget_in in E. apply HB in E. lia.
Qed.

Lemma cset_in {V} k v (l : list (Z * V)) k' v' :
  In (k', v') (cset k v l) -> (k' = k /\ v' = v) \/ In (k', v') l.
Proof.
  induction l as [|[a w] l IH]; cbn [cset].
  - intros [[= <- <-]|[]]. auto.
  - destruct (k <? a).
    + intros [[= <- <-]|HI]; [auto|]. right. exact HI.
    + destruct (a =? k).
      * intros [[= <- <-]|HI]; [auto|]. right. right. exact HI.
      * intros [[= <- <-]|HI]; [right; left; reflexivity|].
        destruct (IH HI) as [?|?]; [auto|]. right. right. assumption.
Qed.

Lemma cset_sorted {V} k v (l : list (Z * V)) : sorted l -> sorted (cset k v l).
Proof.
  induction 1 as [|a w l HB HS IH]; cbn [cset].
  - constructor; [intros ? ? []|constructor].
  - destruct (k <? a) eqn:E1.
    + constructor.
      * intros k' v' [[= <- <-]|HI]; [lia|]. apply HB in HI. lia.
      * constructor; assumption.
    + destruct (a =? k) eqn:E2.
      * constructor; [|assumption]. intros k' v' HI. apply HB in HI. lia.
      * constructor; [|assumption]. intros k' v' HI.
        destruct (cset_in _ _ _ _ _ HI) as [[-> _]|HI']; [lia|]. eauto.
Qed.

Lemma aget_cset {V} k v (l : list (Z * V)) k' :
  sorted l -> aget k' (cset k v l) = if k' =? k then Some v else aget k' l.
Proof.
  induction 1 as [|a w l HB HS IH]; cbn [cset aget].
  - rewrite (Z.eqb_sym k k'). reflexivity.
  - destruct (k <? a) eqn:E1; cbn [aget].
    + rewrite (Z.eqb_sym k k'). destruct (k' =? k) eqn:E2; [|reflexivity].
      reflexivity.
    + destruct (a =? k) eqn:E2; cbn [aget].
      * rewrite (Z.eqb_sym k k'). destruct (k' =? k) eqn:E3; [reflexivity|].
        destruct (a =? k') eqn:E4; [lia|reflexivity].
      * rewrite IH. destruct (a =? k') eqn:E4; [|reflexivity].
        destruct (k' =? k) eqn:E5; [lia|reflexivity].
Qed.

Section SessProofs.
Context {St Op Rep : Type}.
Variable wr : Op -> St -> St * Rep.
Variable rd : Op -> St -> Rep.
Variable lf : Op -> St -> option Rep.
Variable x0 : St.

Notation tkt := (@tkt Op).
Notation entry := (@entry Op).
Notation node := (@node St Rep).
Notation ste := (@ste Rep).
Notation event := (@event Op).

Lemma dropBelow_incl b (c : list (Z * @done Rep)) k d :
  In (k, d) (dropBelow b c) -> In (k, d) c.
Proof.
  induction c as [|[s x] c IH]; cbn [dropBelow]; [auto|].
  destruct (s <? b); [right; auto|auto].
Qed.

Lemma dropBelow_sorted b (c : list (Z * @done Rep)) : sorted c -> sorted (dropBelow b c).
Proof.
  induction 1 as [|s x c HB HS IH]; cbn [dropBelow]; [constructor|].
  destruct (s <? b); [assumption|]. constructor; assumption.
Qed.

Lemma aget_dropBelow b (c : list (Z * @done Rep)) k :
  sorted c -> aget k (dropBelow b c) = if k <? b then None else aget k c.
Proof.
  induction 1 as [|s x c HB HS IH]; cbn [dropBelow].
  - destruct (k <? b); reflexivity.
  - destruct (s <? b) eqn:E.
    + rewrite IH. cbn [aget]. destruct (k <? b) eqn:E2; [reflexivity|].
      destruct (s =? k) eqn:E3; [lia|reflexivity].
    + destruct (k <? b) eqn:E2; [|reflexivity].
      apply aget_above. intros k' v' [[= <- <-]|HI]; [lia|]. apply HB in HI. lia.
Qed.

Lemma cleanup_sorted b (s : ste) : sorted (eCache s) -> sorted (eCache (cleanupAcked b s)).
Proof.
  intros HS. unfold cleanupAcked. destruct (b <=? 0); [assumption|].
  apply dropBelow_sorted. assumption.
Qed.

Lemma cleanup_get b (s : ste) k :
  sorted (eCache s) ->
  aget k (eCache (cleanupAcked b s)) = None \/ aget k (eCache (cleanupAcked b s)) = aget k (eCache s).
Proof.
  intros HS. unfold cleanupAcked. destruct (b <=? 0); [auto|].
  cbn [setCache eCache]. rewrite aget_dropBelow by assumption.
  destruct (k <? b); auto.
Qed.

Lemma cleanup_keep b (s : ste) k :
  sorted (eCache s) -> b <= k ->
  aget k (eCache (cleanupAcked b s)) = aget k (eCache s).
Proof.
  intros HS HB. unfold cleanupAcked. destruct (b <=? 0); [auto|].
  cbn [setCache eCache]. rewrite aget_dropBelow by assumption.
  destruct (k <? b) eqn:E; [lia|reflexivity].
Qed.

Lemma cleanup_other b (s : ste) :
  eSid (cleanupAcked b s) = eSid s /\ eMax (cleanupAcked b s) = eMax s
  /\ eEndx (cleanupAcked b s) = eEndx s /\ eClient (cleanupAcked b s) = eClient s
  /\ eDur (cleanupAcked b s) = eDur s /\ eT0 (cleanupAcked b s) = eT0 s.
Proof. unfold cleanupAcked. destruct (b <=? 0); repeat split. Qed.

(** ** The heap *)
Lemma hset_length {A} o (s : A) h : length (hset o s h) = length h.
Proof. revert o; induction h as [|a h IH]; intros [|o]; cbn; auto. Qed.

Lemma hget_hset o s (h : list ste) o' :
  hget (hset o s h) o' = if ((o' =? o) && (o <? length h))%nat then s else hget h o'.
Proof.
  unfold hget. revert o o'. induction h as [|a h IH]; intros o o'.
  - destruct o; cbn; destruct o'; rewrite ?andb_false_r; reflexivity.
  - destruct o as [|o], o' as [|o']; cbn [hset nth]; try reflexivity.
    rewrite IH. reflexivity.
Qed.

Lemma hget_app_l (h k : list ste) o : (o < length h)%nat -> hget (h ++ k) o = hget h o.
Proof. intros. unfold hget. apply app_nth1. assumption. Qed.

Lemma hget_app_len (h : list ste) s : hget (h ++ [s]) (length h) = s.
Proof. unfold hget. rewrite app_nth2, Nat.sub_diag by lia. reflexivity. Qed.

(** ** Knowledge of the sessions in the table *)
Definition ok (P : Z -> ste -> Prop) (n : node) : Prop :=
  forall sid o, aget sid (nTab n) = Some o ->
    (o < length (nHeap n))%nat /\ eSid (hget (nHeap n) o) = sid /\ P sid (hget (nHeap n) o).

Lemma ok_lookup P n sid o s :
  ok P n -> lookup sid n = Some (o, s) ->
  aget sid (nTab n) = Some o /\ s = hget (nHeap n) o /\ eSid s = sid /\ P sid s
  /\ (o < length (nHeap n))%nat.
Proof.
  intros HOk. unfold lookup. destruct (aget sid (nTab n)) as [o'|] eqn:E; [|discriminate].
  intros [= <- <-]. destruct (HOk _ _ E) as (? & ? & ?). auto.
Qed.

Lemma ok_weaken (P Q : Z -> ste -> Prop) n :
  ok P n -> (forall sid s, P sid s -> Q sid s) -> ok Q n.
Proof. intros HOk HI sid o HA. destruct (HOk _ _ HA) as (? & ? & ?). auto. Qed.

Lemma ok_sub (P : Z -> ste -> Prop) (n n' : node) :
  ok P n -> nHeap n' = nHeap n ->
  (forall sid o, aget sid (nTab n') = Some o -> aget sid (nTab n) = Some o) -> ok P n'.
Proof. intros HOk HH HT sid o HA. rewrite HH. apply HOk, HT, HA. Qed.

Lemma gcLoop_sub lnow (h : list ste) tree : forall tab byc tree' tab' byc' sid o,
  gcLoop lnow h tree tab byc = (tree', tab', byc') ->
  aget sid tab' = Some o -> aget sid tab = Some o.
Proof.
  induction tree as [|x tree IH]; intros tab byc tree' tab' byc' sid o HG HA; cbn [gcLoop] in HG.
  - injection HG as <- <- <-. assumption.
  - destruct (lnow <? eEndx (hget h x)).
    + injection HG as <- <- <-. assumption.
    + apply (IH _ _ _ _ _ _ _ HG) in HA. apply aget_adel_some in HA. apply HA.
Qed.

Lemma gc_sub lnow (n : node) sid o :
  aget sid (nTab (gc lnow n)) = Some o -> aget sid (nTab n) = Some o.
Proof.
  unfold gc. destruct (gcLoop _ _ _ _ _) as [[tr ta] by'] eqn:E. cbn [nTab].
  eapply gcLoop_sub, E.
Qed.

Lemma gc_same lnow (n : node) :
  nHeap (gc lnow n) = nHeap n /\ nSt (gc lnow n) = nSt n /\ nLast (gc lnow n) = nLast n.
Proof. unfold gc. destruct (gcLoop _ _ _ _ _) as [[tr ta] by']. auto. Qed.

Lemma ok_gc P lnow n : ok P n -> ok P (gc lnow n).
Proof.
  intros HOk. eapply ok_sub; [exact HOk|apply gc_same|]. intros. eapply gc_sub. eassumption.
Qed.

Lemma goners_same (l : list nat) : forall n : node,
  nHeap (fold_left dropGoner l n) = nHeap n /\ nSt (fold_left dropGoner l n) = nSt n
  /\ nLast (fold_left dropGoner l n) = nLast n /\ nByc (fold_left dropGoner l n) = nByc n
  /\ (forall sid o, aget sid (nTab (fold_left dropGoner l n)) = Some o -> aget sid (nTab n) = Some o).
Proof.
  induction l as [|x l IH]; intros n; cbn [fold_left].
  - auto.
  - destruct (IH (dropGoner n x)) as (A & B & C & D & E).
    rewrite A, B, C, D. repeat split.
    intros sid o HA. apply E in HA. cbn [dropGoner setTree setTab nTab] in HA.
    apply aget_adel_some in HA. apply HA.
Qed.

Lemma update_same order (n : node) :
  nHeap (updateByClient order n) = nHeap n /\ nSt (updateByClient order n) = nSt n
  /\ nLast (updateByClient order n) = nLast n
  /\ (forall sid o, aget sid (nTab (updateByClient order n)) = Some o -> aget sid (nTab n) = Some o).
Proof.
  unfold updateByClient. destruct (scanClients _ _ _ _) as [byc goners].
  destruct (goners_same goners (setByc byc n)) as (A & B & C & _ & E).
  rewrite A, B, C. auto.
Qed.

Lemma ok_update P order n : ok P n -> ok P (updateByClient order n).
Proof.
  intros HOk. destruct (update_same order n) as (A & _ & _ & E). eapply ok_sub; eauto.
Qed.

Lemma onSte_tab o f (n : node) : nTab (onSte o f n) = nTab n.
Proof. reflexivity. Qed.

Lemma hget_onSte o f (n : node) o' :
  (o < length (nHeap n))%nat ->
  hget (nHeap (onSte o f n)) o' = if (o' =? o)%nat then f (hget (nHeap n) o) else hget (nHeap n) o'.
Proof.
  intros HL. cbn [onSte setHeap nHeap]. rewrite hget_hset.
  replace (o <? length (nHeap n))%nat with true by (symmetry; apply Nat.ltb_lt; assumption).
  rewrite andb_true_r. reflexivity.
Qed.

(** an entry changed in place: its session may learn something new, the
    others carry over what they knew. *)
Lemma ok_onSte (P Q : Z -> ste -> Prop) n sid o f :
  ok P n -> aget sid (nTab n) = Some o ->
  (forall s, eSid s = sid -> P sid s -> eSid (f s) = sid /\ Q sid (f s)) ->
  (forall sid' s, sid' <> sid -> P sid' s -> Q sid' s) ->
  ok Q (onSte o f n).
Proof.
  intros HOk HA HF HO sid' o' HA'. rewrite onSte_tab in HA'.
  destruct (HOk _ _ HA) as (HL & HE & HP). destruct (HOk _ _ HA') as (HL' & HE' & HP').
  rewrite hget_onSte by assumption. split.
  { cbn [onSte setHeap nHeap]. rewrite hset_length. assumption. }
  destruct (o' =? o)%nat eqn:E.
  - apply Nat.eqb_eq in E. subst o'.
    assert (sid' = sid) by congruence. rewrite H in *. apply HF; assumption.
  - split; [assumption|]. apply HO; [|assumption].
    intros ->. rewrite HA in HA'. injection HA' as ->. rewrite Nat.eqb_refl in E. discriminate.
Qed.

(** what does not look at the end time survives a refresh. *)
Definition no_endx (P : Z -> ste -> Prop) : Prop :=
  forall sid s x, P sid s -> P sid (setEndx x s).

Lemma refresh_as_onSte from o (n : node) :
  refreshSession from o n =
  setTree (nTree (refreshSession from o n))
    (onSte o (fun s => setEndx (from + eDur s) s) n).
Proof. reflexivity. Qed.

Lemma ok_setTree P t (n : node) : ok P n -> ok P (setTree t n).
Proof. intros HOk. exact HOk. Qed.

Lemma ok_refresh (P : Z -> ste -> Prop) n sid o from :
  no_endx P -> ok P n -> aget sid (nTab n) = Some o -> ok P (refreshSession from o n).
Proof.
  intros HN HOk HA. rewrite refresh_as_onSte. apply ok_setTree.
  eapply ok_onSte; [exact HOk|exact HA| |auto].
  intros s HE HP. split; [exact HE|]. apply HN, HP.
Qed.

Lemma ok_setTab_del P sid (n : node) : ok P n -> ok P (setTab (adel sid (nTab n)) n).
Proof.
  intros HOk. eapply ok_sub; [exact HOk|reflexivity|].
  intros s o HA. cbn [setTab nTab] in HA. apply aget_adel_some in HA. apply HA.
Qed.

Lemma ok_end P sid n : ok P n -> ok P (applyEndSess sid n).
Proof.
  intros HOk. unfold applyEndSess. destruct (lookup sid n) as [[o s]|]; [|assumption].
  eapply ok_sub; [exact HOk|reflexivity|].
  intros s' o' HA. cbn [nTab] in HA. apply aget_adel_some in HA. apply HA.
Qed.

Lemma ok_new (P : Z -> ste -> Prop) r n :
  ok P n -> (aget (rqSid r) (nTab n) = None -> P (rqSid r) (newSte r)) -> ok P (applyNewSess r n).
Proof.
  intros HOk HNew. unfold applyNewSess. destruct (aget (rqSid r) (nTab n)) eqn:E; [assumption|].
  apply ok_update. intros sid o HA. cbn [nTab nHeap] in *. rewrite aget_aset in HA.
  rewrite app_length. cbn [length].
  destruct (sid =? rqSid r) eqn:E2.
  - injection HA as <-. rewrite hget_app_len. apply Z.eqb_eq in E2. subst sid.
    split; [lia|]. split; [reflexivity|auto].
  - destruct (HOk _ _ HA) as (HL & HE & HP). rewrite hget_app_l by assumption.
    split; [lia|auto].
Qed.

Lemma new_same r (n : node) :
  nSt (applyNewSess r n) = nSt n /\ nLast (applyNewSess r n) = nLast n.
Proof.
  unfold applyNewSess. destruct (aget (rqSid r) (nTab n)); [auto|].
  match goal with |- context [updateByClient ?a ?b] => destruct (update_same a b) as (A & B & C & _) end.
  rewrite B, C. auto.
Qed.

Lemma end_same sid (n : node) :
  nSt (applyEndSess sid n) = nSt n /\ nLast (applyEndSess sid n) = nLast n.
Proof. unfold applyEndSess. destruct (lookup sid n) as [[o s]|]; auto. Qed.

(** ** Snapshots *)
Lemma clone_get (h : list ste) : forall (tab : list (Z * nat)) base sid o,
  aget sid (combine (map fst tab) (seq base (length tab))) = Some o ->
  exists i o0, o = (base + i)%nat /\ (i < length tab)%nat /\ aget sid tab = Some o0 /\
    nth i (map (fun p => cloneSte (hget h (snd p))) tab) (mkSte 0 [] 0 0 0 0 0 0 0) = cloneSte (hget h o0).
Proof.
  induction tab as [|[k v] tab IH]; intros base sid o; cbn [map length seq combine aget]; [discriminate|].
  cbn [fst]. destruct (k =? sid) eqn:E.
  - intros [= <-]. exists O, v. cbn [nth snd]. repeat split; lia.
  - intros HA. destruct (IH _ _ _ HA) as (i & o0 & -> & HL & HG & HN).
    exists (S i), o0. cbn [nth]. repeat split; [lia|lia|assumption|assumption].
Qed.

Lemma ok_install (P : Z -> ste -> Prop) m order n :
  no_endx P -> ok P m -> ok P (install m order n).
Proof.
  intros HN HOk. unfold install, cloneTab. apply ok_update. intros sid o HA.
  cbn [nTab nHeap] in *.
  destruct (clone_get (nHeap m) _ _ _ _ HA) as (i & o0 & -> & HL & HG & HNth).
  rewrite app_length, map_length. split; [lia|].
  match goal with |- context [hget ?h ?o] => assert (HG' : hget h o = cloneSte (hget (nHeap m) o0)) end.
  { unfold hget at 1. rewrite app_nth2 by lia.
    replace (length (nHeap n) + i - length (nHeap n))%nat with i by lia. exact HNth. }
  rewrite HG'. destruct (HOk _ _ HG) as (_ & HE & HP).
  split; [exact HE|apply HN, HP].
Qed.

End SessProofs.
