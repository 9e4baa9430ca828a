(** Linearizability of the locked map. *)
From Coq Require Import List Bool Arith Lia.
From Verif Require Import Mmap_Model Mmap_Spec.
Import ListNotations.

Section proofs.
Variables K V : Type.
Variable Keqb : K -> K -> bool.
Hypothesis Keqb_spec : forall a b, reflect (a = b) (Keqb a b).
Arguments PRet {K V}. Arguments PGet {K V}. Arguments PSet {K V}. Arguments PDel {K V}. Arguments PLen {K V}.
Arguments PClear {K V}. Arguments PRange {K V}. Arguments PFresh {K V}. Arguments PTake {K V}. Arguments PNew {K V}.
Arguments PCopy {K V}. Arguments PPanic {K V}. Arguments RLoc {K V}. Arguments RUnit {K V}.
Arguments TIdle {K V}. Arguments TCalled {K V}. Arguments TIn {K V}. Arguments TRet {K V}.
Arguments mkSys {K V}. Arguments mkMem {K V}. Arguments heap {K V}. Arguments next {K V}. Arguments cur {K V}.
Arguments mem {K V}. Arguments writer {K V}. Arguments readers {K V}. Arguments thread {K V}. Arguments owned {K V}.
Arguments hist {K V}. Arguments here {K V}. Arguments store {K V}. Arguments hset {K V}.
Notation gomap := (gomap K V). Notation prog := (prog K V). Notation amap := (amap K V).
Notation call := (call K V). Notation result := (result K V). Notation memory := (memory K V). Notation sys := (sys K V).
Notation mget := (mget K V Keqb). Notation mset := (mset K V Keqb). Notation mdel := (mdel K V Keqb).
Notation pstep := (pstep K V Keqb). Notation step := (step K V Keqb). Notation steps := (steps K V Keqb).
Notation ORes := (ORes K V). Notation seenKey := (seenKey K V Keqb).
Notation lists := (lists K V). Notation sized := (sized K V). Notation does := (does K V).

Definition abs (g : gomap) : amap := fun k => mget k g.
Definition okmap (g : gomap) : Prop := NoDup (map fst g).

Lemma eqb_refl : forall k, Keqb k k = true.
Proof. intros k. destruct (Keqb_spec k k); congruence. Qed.
Lemma eqb_neq : forall a b, a <> b -> Keqb a b = false.
Proof. intros a b N. destruct (Keqb_spec a b); congruence. Qed.
Lemma mget_in : forall g k v, mget k g = Some v -> In (k, v) g.
Proof.
  induction g as [|[x w] r IH]; simpl; [discriminate|]. intros k v H.
  destruct (Keqb_spec k x) as [->|N]; [injection H as ->; auto|auto].
Qed.
Lemma in_mget : forall g k v, okmap g -> In (k, v) g -> mget k g = Some v.
Proof.
  induction g as [|[x w] r IH]; simpl; intros k v D H; [contradiction|]. unfold okmap in *. simpl in D. inversion_clear D.
  destruct H as [H|H].
  - injection H as -> ->. now rewrite eqb_refl.
  - rewrite eqb_neq; [auto|]. intros ->. apply H0. change x with (fst (x, v)). now apply in_map.
Qed.
Lemma lists_abs : forall g, okmap g -> lists (abs g) g.
Proof. intros g H. split; [exact H|]. intros k v. split; [now apply in_mget|apply mget_in]. Qed.
Lemma sized_abs : forall g, okmap g -> sized (abs g) (length g).
Proof. intros g H. exists g. split; auto. now apply lists_abs. Qed.
Lemma mget_del : forall g k x, mget x (mdel k g) = if Keqb x k then None else mget x g.
Proof.
  induction g as [|[y w] r IH]; simpl; intros k x; [now destruct (Keqb x k)|].
  destruct (Keqb_spec k y) as [->|N].
  - rewrite IH. destruct (Keqb x y); auto.
  - simpl. rewrite IH. destruct (Keqb_spec x y) as [->|M]; auto. rewrite eqb_neq; auto.
Qed.
Lemma in_del : forall g k e, In e (mdel k g) -> In e g /\ fst e <> k.
Proof.
  induction g as [|[y w] r IH]; simpl; intros k e H; [contradiction|].
  destruct (Keqb_spec k y) as [->|N].
  - destruct (IH _ _ H); auto.
  - destruct H as [<-|H]; [split; auto|]. destruct (IH _ _ H); auto.
Qed.
Lemma okmap_del : forall g k, okmap g -> okmap (mdel k g).
Proof.
  unfold okmap. induction g as [|[y w] r IH]; simpl; intros k D; [constructor|]. inversion_clear D.
  destruct (Keqb k y); auto. simpl. constructor; auto. intros Hin. apply in_map_iff in Hin as (e & E & He).
  apply in_del in He as (He & _). apply H. rewrite <- E. now apply in_map.
Qed.
Lemma okmap_set : forall g k v, okmap g -> okmap (mset k v g).
Proof.
  intros g k v D. unfold okmap, mset. simpl. constructor; [|now apply okmap_del].
  intros Hin. apply in_map_iff in Hin as (e & E & He). apply in_del in He as (_ & He). congruence.
Qed.
Lemma isSet_abs : forall g k v, isSet K V k v (abs g) (abs (mset k v g)).
Proof.
  intros g k v. unfold isSet, abs, Mmap_Model.mset. simpl. rewrite eqb_refl. split; auto.
  intros x N. rewrite eqb_neq, mget_del, eqb_neq; auto.
Qed.
Lemma isDel_abs : forall g k, isDel K V k (abs g) (abs (mdel k g)).
Proof.
  intros g k. unfold isDel, abs. split; intros; rewrite mget_del; [now rewrite eqb_refl|now rewrite eqb_neq].
Qed.

(** * The statement sequences that do not touch the local map. *)
Inductive brun : prog -> amap -> amap -> result -> Prop :=
| b_ret : forall r m, brun (PRet r) m m r
| b_get : forall k c m m' r, brun (c (m k)) m m' r -> brun (PGet k c) m m' r
| b_set : forall k v c m m1 m' r, isSet K V k v m m1 -> brun c m1 m' r -> brun (PSet k v c) m m' r
| b_del : forall k c m m1 m' r, isDel K V k m m1 -> brun c m1 m' r -> brun (PDel k c) m m' r
| b_len : forall c n m m' r, sized m n -> brun (c n) m m' r -> brun (PLen c) m m' r
| b_clear : forall c m m1 m' r, same K V (emptyMap K V) m1 -> brun c m1 m' r -> brun (PClear c) m m' r
| b_range : forall seen l c m m' r, lists m (seen ++ l) -> brun (c (seen ++ l)) m m' r -> brun (PRange seen c) m m' r.

Fixpoint plain (p : prog) : Prop :=
  match p with
  | PRet r => r <> RLoc
  | PGet _ c => forall v, plain (c v)
  | PLen c => forall n, plain (c n)
  | PRange seen c => seen = [] /\ forall l, plain (c l)
  | PSet _ _ c | PDel _ c | PClear c => plain c
  | PPanic => True
  | _ => False
  end.
Fixpoint pureRead (p : prog) : Prop :=
  match p with
  | PRet r => r <> RLoc
  | PGet _ c => forall v, pureRead (c v)
  | PLen c => forall n, pureRead (c n)
  | PRange seen c => seen = [] /\ forall l, pureRead (c l)
  | PPanic => True
  | _ => False
  end.
Definition top (P : prog -> Prop) (g : gomap) (p : prog) : Prop :=
  match p with
  | PRange seen c => (forall l, P (c l)) /\ NoDup (map fst seen) /\ incl seen g
  | _ => P p
  end.
Lemma plain_top : forall g p, plain p -> top plain g p.
Proof. intros g [] H; simpl in *; auto. destruct H as (-> & H). repeat split; auto; [constructor|easy]. Qed.
Lemma pure_top : forall g p, pureRead p -> top pureRead g p.
Proof. intros g [] H; simpl in *; auto. destruct H as (-> & H). repeat split; auto; [constructor|easy]. Qed.

Lemma seenKey_true : forall seen k, seenKey seen k = true <-> In k (map fst seen).
Proof.
  intros seen k. unfold Mmap_Model.seenKey. rewrite existsb_exists, in_map_iff. split.
  - intros ((x & v) & H & E). simpl in E. destruct (Keqb_spec k x) as [->|]; [|discriminate]. exists (x, v). auto.
  - intros ((x & v) & E & H). exists (x, v). simpl in *. subst. split; auto. apply eqb_refl.
Qed.
Lemma nodup_snoc : forall A (l : list A) x, NoDup l -> ~ In x l -> NoDup (l ++ [x]).
Proof.
  induction l as [|y l IH]; simpl; intros x D N; [constructor; [easy|constructor]|].
  inversion_clear D. constructor; [|apply IH; auto]. intros H1. apply in_app_or in H1 as [H1|[H1|[]]]; auto. 
Qed.
Lemma same_refl : forall m, same K V m m.
Proof. intros m x. auto. Qed.

(** One access keeps the promise about how the call ends. *)
Lemma cont_step : forall s mm p s' mm' p' (Q : amap -> result -> Prop), pstep s mm p s' mm' p' ->
  okmap (here s) -> top plain (here s) p ->
  (forall m' r, brun p (abs (here s)) m' r -> Q m' r) ->
  top plain (here s') p' /\ (forall m' r, brun p' (abs (here s')) m' r -> Q m' r) /\ okmap (here s') /\
  mm' = mm /\ next s' = next s /\ cur s' = cur s /\ (forall x, x <> cur s -> heap s' x = heap s x).
Proof.
  intros s mm p s' mm' p' Q H O T C.
  assert (HS : forall g, here (store s (cur s) g) = g) by (intros g; unfold here, store, hset; simpl; now rewrite Nat.eqb_refl).
  assert (HX : forall g x, x <> cur s -> heap (store s (cur s) g) x = heap s x)
    by (intros g x N; unfold store, hset; simpl; now destruct (Nat.eqb_spec x (cur s))).
  destruct H; simpl in T; try contradiction.
  - split; [apply plain_top; apply T|]. split; [|auto 10]. intros m' r B. apply C. constructor. exact B.
  - rewrite HS. split; [now apply plain_top|]. split; [|split; [now apply okmap_set|auto 10]].
    intros m' r B. apply C. econstructor; [apply isSet_abs|exact B].
  - rewrite HS. split; [now apply plain_top|]. split; [|split; [now apply okmap_del|auto 10]].
    intros m' r B. apply C. econstructor; [apply isDel_abs|exact B].
  - split; [apply plain_top; apply T|]. split; [|auto 10]. intros m' r B. apply C. econstructor; [now apply sized_abs|exact B].
  - rewrite HS. split; [now apply plain_top|]. split; [|split; [constructor|auto 10]].
    intros m' r B. apply C. econstructor; [|exact B]. intros x. reflexivity.
  - destruct T as (T1 & T2 & T3).
    assert (N : ~ In k (map fst seen)).
    { intros X. apply seenKey_true in X. congruence. }
    split.
    + simpl. split; [exact T1|]. rewrite map_app. split; [now apply nodup_snoc|].
      intros e E. apply in_app_or in E as [E|[<-|[]]]; auto.
    + split; [|auto 10]. intros m' r B. apply C. inversion B as [| | | | | |? l0 ? ? ? ? L1 B1]; subst. rewrite <- app_assoc in L1, B1. econstructor; eauto.
  - destruct T as (T1 & T2 & T3). split; [apply plain_top; apply T1|]. split; [|auto 10].
    intros m' r B. apply C. apply b_range with (l := []); rewrite app_nil_r; [|exact B].
    split; [exact T2|]. intros k v. unfold abs. split.
    + intros X. apply T3 in X. now apply in_mget.
    + intros X. apply mget_in in X. pose proof (H _ _ X) as Y. apply seenKey_true in Y.
      apply in_map_iff in Y as ((k2 & v2) & E & Y). simpl in E. subst.
      assert (v2 = v); [|subst; auto]. apply T3 in Y. apply in_mget in Y; auto. apply in_mget in X; auto. congruence.
Qed.
(** Readers write nothing. *)
Lemma read_step : forall s mm p s' mm' p', pstep s mm p s' mm' p' -> top pureRead (here s) p ->
  s' = s /\ top pureRead (here s) p'.
Proof.
  intros s mm p s' mm' p' H T. destruct H; simpl in T; try contradiction.
  - split; auto. apply pure_top. apply T.
  - split; auto. apply pure_top. apply T.
  - split; auto. destruct T as (T1 & T2 & T3). simpl. split; auto. rewrite map_app. split.
    + apply nodup_snoc; auto. intros X. simpl in X. apply seenKey_true in X. congruence.
    + intros e E. apply in_app_or in E as [E|[<-|[]]]; auto.
  - split; auto. apply pure_top. apply T.
Qed.
Lemma pure_plain : forall p, pureRead p -> plain p.
Proof. induction p; simpl; intros X; try contradiction; auto. destruct X as (-> & X). split; auto. Qed.
Lemma pure_plain_top : forall g p, top pureRead g p -> top plain g p.
Proof. intros g [] X; simpl in *; auto; try (intros; now apply pure_plain). destruct X as (X1 & X2 & X3). repeat split; auto. intros. now apply pure_plain. Qed.

(** * Each body does its call. *)
Definition simpleCall (c : call) : bool :=
  match c with GetMapReset _ _ | GetMapCloneAtomic _ _ | Reset _ _ => false | _ => true end.
Lemma updater_plain : forall p, updater K V p -> plain p.
Proof. induction p; simpl; intros X; try contradiction; auto; [subst; discriminate|]. destruct X; auto. Qed.
Lemma readOnly_pure : forall p, readOnly K V p -> pureRead p.
Proof. induction p; simpl; intros X; try contradiction; auto; [subst; discriminate|]. destruct X; auto. Qed.
Lemma body_plain : forall c, callOk K V c -> simpleCall c = true -> plain (body K V c).
Proof.
  intros c H S. destruct c; simpl in *; try discriminate; auto; try (now repeat split); try (intros; discriminate).
  - intros [v|]; intros; discriminate.
  - now apply updater_plain.
  - apply pure_plain, readOnly_pure, H.
Qed.
Lemma body_pure : forall c, callOk K V c -> lockMode K V c = R -> pureRead (body K V c).
Proof.
  intros c H S. destruct c; simpl in *; try discriminate; auto; try (now repeat split); try (intros; discriminate).
  now apply readOnly_pure.
Qed.
Lemma brun_updater : forall p m m' r, brun p m m' r -> updater K V p -> runs K V p m m' /\ r = RUnit.
Proof.
  induction 1; simpl; intros U; try contradiction.
  - subst. split; auto. constructor. apply same_refl.
  - destruct (IHbrun (U _)). split; auto. now constructor.
  - destruct (IHbrun U). split; auto. econstructor; eauto.
  - destruct (IHbrun U). split; auto. econstructor; eauto.
  - destruct (IHbrun (U _)). split; auto. econstructor; eauto.
  - destruct (IHbrun U) as (X & Y). split; auto. constructor. clear - X H.
    (* the cleared map is the empty map, pointwise *)
    assert (G : forall p a m', runs K V p a m' -> forall b, same K V b a -> runs K V p b m').
    { clear. intros p a m' HR. induction HR; intros b E.
      - constructor. intros x. rewrite H. apply E.
      - constructor. replace (b k) with (m k) by apply E. auto.
      - econstructor; [|eapply IHHR; apply same_refl]. destruct H as (A & B). split; auto. intros. rewrite B; auto.
      - econstructor; [|eapply IHHR; apply same_refl]. destruct H as (A & B). split; auto. intros. rewrite B; auto.
      - econstructor; [|eauto]. destruct H as (l & (A & B) & C). exists l. split; [split|]; auto. intros. rewrite B, (E k). tauto.
      - constructor. apply IHHR. apply same_refl.
      - econstructor; [|eauto]. destruct H as (A & B). split; auto. intros. rewrite B, (E k). tauto. }
    eapply G; eauto.
  - destruct U as (-> & U). destruct (IHbrun (U _)). split; auto. econstructor; eauto.
Qed.
Lemma readOnly_updater : forall p, readOnly K V p -> updater K V p.
Proof. induction p; simpl; intros X; try contradiction; auto. destruct X; auto. Qed.
Lemma brun_pure : forall p m m' r, brun p m m' r -> top pureRead [] p \/ pureRead p -> m' = m.
Proof.
  induction 1; intros [T|T]; simpl in T; try contradiction; auto.
  - destruct T as (T & _). auto.
  - destruct T as (-> & T). auto.
Qed.
Ltac binv := repeat match goal with
  | H : brun (PRet _) _ _ _ |- _ => inversion H; subst; clear H
  | H : brun (PGet _ _) _ _ _ |- _ => inversion H; subst; clear H
  | H : brun (PSet _ _ _) _ _ _ |- _ => inversion H; subst; clear H
  | H : brun (PDel _ _) _ _ _ |- _ => inversion H; subst; clear H
  | H : brun (PLen _) _ _ _ |- _ => inversion H; subst; clear H
  | H : brun (PClear _) _ _ _ |- _ => inversion H; subst; clear H
  | H : brun (PRange _ _) _ _ _ |- _ => inversion H; subst; clear H
  end.
Lemma body_does : forall c m m' r, callOk K V c -> simpleCall c = true -> brun (body K V c) m m' r -> does c m m' (ORes r).
Proof.
  intros c m m' r OK S B. destruct c; simpl in *; try discriminate;
    try (binv; simpl in *; econstructor; eauto; apply same_refl).
  - binv. destruct (m k) as [v|] eqn:E; binv; rewrite <- E; constructor; auto. split; auto.
  - destruct (brun_updater _ _ _ _ B OK) as (X & ->). now constructor.
  - destruct (brun_updater _ _ _ _ B) as (X & ->); [now apply readOnly_updater|].
    pose proof (brun_pure _ _ _ _ B) as E. rewrite E in X by (right; now apply readOnly_pure).
    rewrite E by (right; now apply readOnly_pure). constructor; auto. apply same_refl.
Qed.

(** * The invariant of the whole system. *)
Definition privOf (x : tstate K V) : option nat := match x with TRet _ RLoc mm => Some mm | _ => None end.
Definition freshRef (m : memory) (th : nat -> tstate K V) (ow : list nat) (mm : nat) : Prop :=
  mm < next m /\ mm <> cur m /\ ~ In mm ow /\ forall t, privOf (th t) <> Some mm.

Inductive winv (M : amap) (m : memory) (th : nat -> tstate K V) (ow : list nat) : call -> prog -> nat -> Prop :=
| wi_simple : forall c p mm, simpleCall c = true -> top plain (here m) p ->
    (forall m' r, brun p (abs (here m)) m' r -> does c M m' (ORes r)) -> winv M m th ow c p mm
| wi_reset1 : forall mm, M = abs (here m) -> winv M m th ow (Reset K V) (PFresh (PRet RUnit)) mm
| wi_reset2 : forall mm, here m = [] -> winv M m th ow (Reset K V) (PRet RUnit) mm
| wi_mr1 : forall mm, M = abs (here m) -> winv M m th ow (GetMapReset K V) (PTake (PFresh (PRet RLoc))) mm
| wi_mr2 : forall mm, M = abs (here m) -> mm = cur m -> winv M m th ow (GetMapReset K V) (PFresh (PRet RLoc)) mm
| wi_mr3 : forall mm, M = abs (heap m mm) -> here m = [] -> freshRef m th ow mm -> winv M m th ow (GetMapReset K V) (PRet RLoc) mm
| wi_cl1 : forall mm, M = abs (here m) -> winv M m th ow (GetMapCloneAtomic K V) (PNew (PCopy [] (PRet RLoc))) mm
| wi_cl2 : forall mm seen, M = abs (here m) -> freshRef m th ow mm -> incl seen (here m) ->
    (forall e, In e (heap m mm) <-> In e seen) -> winv M m th ow (GetMapCloneAtomic K V) (PCopy seen (PRet RLoc)) mm
| wi_cl3 : forall mm, M = abs (here m) -> freshRef m th ow mm -> (forall e, In e (heap m mm) <-> In e (here m)) ->
    winv M m th ow (GetMapCloneAtomic K V) (PRet RLoc) mm.

Definition phaseOf (m : memory) (x : tstate K V) : phase K V :=
  match x with
  | TIdle => PhIdle K V
  | TCalled c => PhCalled K V c
  | TIn c _ _ => PhCalled K V c
  | TRet c r mm => PhDone K V (observe K V (heap m) r mm)
  end.

Record invL (s : sys) (x : list (xevent K V)) (M : amap) : Prop := mkInv {
  i_erase : erase K V x = hist s;
  i_phase : forall t, phases K V t x (phaseOf (mem s) (thread s t));
  i_seq : sequential K V (effects K V x) (emptyMap K V) M;
  i_cur : cur (mem s) < next (mem s);
  i_ok : forall r, okmap (heap (mem s) r);
  i_called : forall t c, thread s t = TCalled c -> callOk K V c;
  i_in : forall t c p mm, thread s t = TIn c p mm ->
    match lockMode K V c with
    | W => writer s = Some t
    | R => In t (readers s) /\ writer s = None /\ simpleCall c = true /\ top pureRead (here (mem s)) p /\
           (forall m' r, brun p M m' r -> does c M m' (ORes r))
    end;
  i_writer : forall t, writer s = Some t -> readers s = [] /\
    exists c p mm, thread s t = TIn c p mm /\ lockMode K V c = W /\ winv M (mem s) (thread s) (owned s) c p mm;
  i_free : writer s = None -> M = abs (here (mem s));
  i_owned : forall r, In r (owned s) -> r < next (mem s) /\ r <> cur (mem s);
  i_priv : forall t mm, privOf (thread s t) = Some mm -> mm < next (mem s) /\ mm <> cur (mem s) /\ ~ In mm (owned s) /\
    forall u, privOf (thread s u) = Some mm -> u = t }.

Lemma inv0 : exists x M, invL (sys0 K V) x M.
Proof.
  exists [], (emptyMap K V). constructor; simpl; try easy; try (intros; constructor; fail).
Qed.

Lemma tset_eq : forall f t (x : tstate K V), tset K V f t x t = x.
Proof. intros. unfold tset. now rewrite Nat.eqb_refl. Qed.
Lemma tset_neq : forall f t (x : tstate K V) u, u <> t -> tset K V f t x u = f u.
Proof. intros f t x u N. unfold tset. destruct (Nat.eqb_spec u t); congruence. Qed.
Lemma erase_app : forall a b, erase K V (a ++ b) = erase K V a ++ erase K V b.
Proof. intros. unfold erase. apply flat_map_app. Qed.
Lemma effects_app : forall a b, effects K V (a ++ b) = effects K V a ++ effects K V b.
Proof. intros. unfold effects. apply flat_map_app. Qed.
Lemma fresh_mono : forall m m' th th' ow ow' mm, freshRef m th ow mm -> next m <= next m' -> (mm <> cur m -> mm < next m -> mm <> cur m') ->
  (In mm ow' -> In mm ow \/ exists t, privOf (th t) = Some mm) -> (forall t, privOf (th' t) = Some mm -> exists u, privOf (th u) = Some mm) ->
  freshRef m' th' ow' mm.
Proof.
  intros m m' th th' ow ow' mm (A & B & C & D) N E F G. split; [lia|]. split; [auto|]. split.
  - intros X. destruct (F X) as [Y|(t & Y)]; [auto|eapply D; eauto].
  - intros t X. destruct (G _ X) as (u & Y). eapply D; eauto.
Qed.
(** Steps of others that leave the current map alone. *)
Lemma winv_mono : forall M m m' th th' ow ow' c p mm, winv M m th ow c p mm ->
  cur m' = cur m -> next m' = next m -> here m' = here m ->
  (forall x, freshRef m th ow x -> heap m' x = heap m x /\ freshRef m' th' ow' x) ->
  winv M m' th' ow' c p mm.
Proof.
  intros M m m' th th' ow ow' c p mm H C N E F.
  destruct H; try (constructor; rewrite ?E; auto; fail).
  - apply wi_mr2; rewrite ?E, ?C; auto.
  - apply wi_mr3; rewrite ?E; auto; destruct (F mm H1) as (X & Y); rewrite ?X; auto.
  - destruct (F mm H0) as (X & Y). apply wi_cl2; rewrite ?E; auto. now rewrite X.
  - destruct (F mm H0) as (X & Y). apply wi_cl3; rewrite ?E; auto. now rewrite X.
Qed.

Ltac tcase u t := destruct (Nat.eq_dec u t) as [->|]; [rewrite ?tset_eq in *|rewrite ?tset_neq in * by assumption].
Lemma priv_tset : forall th t x, privOf x = None -> forall u mm, privOf (tset K V th t x u) = Some mm -> u <> t /\ privOf (th u) = Some mm.
Proof. intros th t x E u mm H. tcase u t; [congruence|auto]. Qed.
(** A thread whose new state holds no map. *)
Lemma fresh_thread : forall m th ow t x mm, freshRef m th ow mm -> privOf x = None -> freshRef m (tset K V th t x) ow mm.
Proof.
  intros m th ow t x mm F E. eapply fresh_mono; eauto. intros u X. apply priv_tset in X as (_ & X); eauto.
Qed.
Lemma priv_thread : forall (m : memory) th ow t x, privOf x = None ->
  (forall t mm, privOf (th t) = Some mm -> mm < next m /\ mm <> cur m /\ ~ In mm ow /\ forall u, privOf (th u) = Some mm -> u = t) ->
  forall u mm, privOf (tset K V th t x u) = Some mm -> mm < next m /\ mm <> cur m /\ ~ In mm ow /\
    forall v, privOf (tset K V th t x v) = Some mm -> v = u.
Proof.
  intros m th ow t x E H u mm X. apply priv_tset in X as (N & X); auto. destruct (H _ _ X) as (A & B & C & D).
  repeat split; auto. intros v Y. apply priv_tset in Y as (N2 & Y); auto.
Qed.

Lemma inv_call : forall m w rs th ow h t c x M, invL (mkSys m w rs th ow h) x M -> th t = TIdle -> callOk K V c ->
  invL (mkSys m w rs (tset K V th t (TCalled c)) ow (h ++ [EInv K V t c])) (x ++ [XE K V (EInv K V t c)]) M.
Proof.
  intros m w rs th ow h t c x M I T OK. destruct I. simpl in *. constructor; simpl.
  - rewrite erase_app, i_erase0. auto.
  - intros u. tcase u t; simpl.
    + constructor. specialize (i_phase0 t). now rewrite T in i_phase0.
    + apply ph_inv'; auto.
  - rewrite effects_app. simpl. rewrite app_nil_r. auto.
  - auto.
  - auto.
  - intros u c' E. tcase u t; [injection E as <-; auto|eauto].
  - intros u c' p mm E. tcase u t; [discriminate|]. exact (i_in0 _ _ _ _ E).
  - intros u E. destruct (i_writer0 u E) as (A & c' & p & mm & B & C & D). split; auto.
    assert (u <> t) by (intros ->; congruence). exists c', p, mm. rewrite tset_neq by auto. repeat split; auto.
    eapply winv_mono; eauto. intros y F. split; auto. now apply fresh_thread.
  - auto.
  - auto.
  - apply (priv_thread m th ow t (TCalled c)); auto.
Qed.

Lemma lockW_not_R : forall c, lockMode K V c = W -> lockMode K V c <> R.
Proof. intros c ->. discriminate. Qed.
Lemma R_simple : forall c, lockMode K V c = R -> simpleCall c = true.
Proof. intros []; simpl; congruence. Qed.

Lemma inv_rlock : forall m rs th ow h t c x M, invL (mkSys m None rs th ow h) x M -> th t = TCalled c -> lockMode K V c = R ->
  invL (mkSys m None (t :: rs) (tset K V th t (TIn c (body K V c) 0)) ow h) x M.
Proof.
  intros m rs th ow h t c x M I T L. destruct I. simpl in *. constructor; simpl; auto.
  - intros u. tcase u t; auto. specialize (i_phase0 t). now rewrite T in i_phase0.
  - intros u c' E. tcase u t; [discriminate|eauto].
  - intros u c' p mm E. tcase u t.
    + injection E as <- <- <-. rewrite L. split; auto. split; auto. split; [now apply R_simple|]. split.
      * apply pure_top. apply body_pure; eauto.
      * intros m' r B. apply body_does; eauto. now apply R_simple.
    + specialize (i_in0 _ _ _ _ E). destruct (lockMode K V c'); auto. destruct i_in0; auto.
  - intros u E. discriminate.
  - apply (priv_thread m th ow t); auto.
Qed.

Lemma inv_lock : forall m th ow h t c x M, invL (mkSys m None [] th ow h) x M -> th t = TCalled c -> lockMode K V c = W ->
  invL (mkSys m (Some t) [] (tset K V th t (TIn c (body K V c) 0)) ow h) x M.
Proof.
  intros m th ow h t c x M I T L. destruct I. simpl in *. constructor; simpl; auto.
  - intros u. tcase u t; auto. specialize (i_phase0 t). now rewrite T in i_phase0.
  - intros u c' E. tcase u t; [discriminate|eauto].
  - intros u c' p mm E. tcase u t.
    + injection E as <- <- <-. now rewrite L.
    + specialize (i_in0 _ _ _ _ E). destruct (lockMode K V c'); [|discriminate]. destruct i_in0 as ([] & _).
  - intros u E. injection E as <-. split; auto. exists c, (body K V c), 0. rewrite tset_eq. repeat split; auto.
    specialize (i_free0 eq_refl). destruct (simpleCall c) eqn:S.
    + apply wi_simple; auto.
      * apply plain_top. apply body_plain; eauto.
      * intros m' r B. subst M. apply body_does; eauto.
    + destruct c; try discriminate; simpl; first [apply wi_reset1|apply wi_mr1|apply wi_cl1]; auto.
  - apply (priv_thread m th ow t); auto.
Qed.

Lemma remove1_in : forall t u l, In u (remove1 t l) <-> In u l /\ u <> t.
Proof. intros. unfold remove1. rewrite filter_In, negb_true_iff, Nat.eqb_neq. tauto. Qed.
Lemma same_entries : forall g g', okmap g -> okmap g' -> (forall e, In e g <-> In e g') -> lists (abs g') g.
Proof.
  intros g g' O O' E. split; auto. intros k v. rewrite E. unfold abs. split; [now apply in_mget|apply mget_in].
Qed.

Lemma unlock_common : forall m w rs w' rs' th ow h t c p r mm x M M' o, invL (mkSys m w rs th ow h) x M -> th t = TIn c p mm ->
  o = observe K V (heap m) r mm -> does c M M' o ->
  (w' = None -> M' = abs (here m)) ->
  (forall u, w' = Some u -> u <> t /\ w = Some u /\ M' = M /\ r <> RLoc) ->
  (w = None \/ forall u c p mm, u <> t -> th u <> TIn c p mm) ->
  (forall u, u <> t -> In u rs -> In u rs') -> (rs = [] -> rs' = []) -> (w = None -> w' = None) ->
  (w = None -> M' = M) ->
  (r = RLoc -> freshRef m th ow mm) ->
  invL (mkSys m w' rs' (tset K V th t (TRet c r mm)) ow h) (x ++ [XLin K V t c o]) M'.
Proof.
  intros m w rs w' rs' th ow h t c p r mm x M M' o I T -> D HF HW HO HR HRe HN HM FR. destruct I. simpl in *. constructor; simpl; auto.
  - rewrite erase_app, i_erase0. simpl. now rewrite app_nil_r.
  - intros u. tcase u t; simpl.
    + apply ph_lin. specialize (i_phase0 t). now rewrite T in i_phase0.
    + apply ph_lin'; auto.
  - rewrite effects_app. simpl. econstructor; eauto.
  - intros u c' E. tcase u t; [discriminate|eauto].
  - intros u c' p' mm' E. tcase u t; [discriminate|]. pose proof (i_in0 _ _ _ _ E) as X.
    destruct HO as [HO|HO]; [|exfalso; eapply HO; eauto]. subst w.
    destruct (lockMode K V c'); [|discriminate]. rewrite (HM eq_refl). intuition auto.
  - intros u E. destruct (HW u E) as (N & Ew & EM & NR). destruct (i_writer0 u Ew) as (A & c' & p' & mm' & B & C & Wi). split; auto.
    exists c', p', mm'. rewrite tset_neq by auto. repeat split; auto. subst M'.
    eapply winv_mono; eauto. intros y F. split; auto. eapply fresh_mono; eauto. intros v X. tcase v t; [|eauto].
    destruct r; try discriminate. congruence.
  - intros u mm' X. tcase u t.
    + destruct r; try discriminate. injection X as <-. destruct (FR eq_refl) as (F1 & F2 & F3 & F4). repeat split; auto.
      intros v Y. tcase v t; auto. exfalso. eapply F4; eauto.
    + destruct (i_priv0 _ _ X) as (A & B & C & E). repeat split; auto. intros v Y. tcase v t; [|auto].
      destruct r; try discriminate. injection Y as <-. destruct (FR eq_refl) as (F1 & F2 & F3 & F4). exfalso. eapply F4; eauto.
Qed.

Lemma observe_ores : forall h r mm, r <> RLoc -> observe K V h r mm = ORes r.
Proof. intros h [] mm N; auto. congruence. Qed.
Lemma inv_unlock : forall m w rs th ow h t c r mm x M, invL (mkSys m w rs th ow h) x M -> th t = TIn c (PRet r) mm ->
  exists x' M', invL (mkSys m (match lockMode K V c with W => None | R => w end)
                (match lockMode K V c with W => rs | R => remove1 t rs end) (tset K V th t (TRet c r mm)) ow h) x' M'.
Proof.
  intros m w rs th ow h t c r mm x M I T. pose proof I as J. destruct I. simpl in *.
  pose proof (i_in0 _ _ _ _ T) as X. destruct (lockMode K V c) eqn:L.
  - destruct X as (A & -> & S & P & C).
    exists (x ++ [XLin K V t c (observe K V (heap m) r mm)]), M. simpl in P.
    eapply unlock_common with (w := None); eauto.
    + rewrite observe_ores by exact P. apply C. constructor.
    + discriminate.
    + intros u N H. apply remove1_in. auto.
    + intros ->. auto.
    + intros ->. congruence.
  - subst w. destruct (i_writer0 t eq_refl) as (A & c' & p & mm' & B & C & Wi). rewrite T in B. injection B as <- <- <-.
    exists (x ++ [XLin K V t c (observe K V (heap m) r mm)]), (abs (here m)).
    eapply unlock_common with (w := Some t); eauto; try discriminate.
    + inversion Wi; subst; simpl.
      * simpl in H0. rewrite observe_ores by exact H0. apply H1. constructor.
      * constructor. match goal with E : here m = [] |- _ => rewrite E end. intros y. reflexivity.
      * constructor; [match goal with E : here m = [] |- _ => rewrite E end; intros y; reflexivity|]. now apply lists_abs.
      * constructor; [apply same_refl|]. apply same_entries; [apply i_ok0|apply (i_ok0 (cur m))|assumption].
    + right. intros u c' p' mm' N E. specialize (i_in0 _ _ _ _ E). destruct (lockMode K V c').
      * destruct i_in0 as (_ & Y & _). discriminate.
      * congruence.
    + inversion Wi; subst; auto; intros Er; try discriminate. simpl in H0. congruence.
Qed.

Lemma inv_return : forall m w rs th ow h t c r mm x M, invL (mkSys m w rs th ow h) x M -> th t = TRet c r mm ->
  invL (mkSys m w rs (tset K V th t TIdle) (match r with RLoc => mm :: ow | _ => ow end)
                (h ++ [ERes K V t (observe K V (heap m) r mm)])) (x ++ [XE K V (ERes K V t (observe K V (heap m) r mm))]) M.
Proof.
  intros m w rs th ow h t c r mm x M I T. destruct I. simpl in *.
  assert (OW : forall y, In y (match r with RLoc => mm :: ow | _ => ow end) -> In y ow \/ privOf (th t) = Some y).
  { rewrite T. simpl. destruct r; auto. intros y [->|H]; auto. }
  constructor; simpl; auto.
  - rewrite erase_app, i_erase0. auto.
  - intros u. tcase u t; simpl.
    + apply ph_res. specialize (i_phase0 t). now rewrite T in i_phase0.
    + apply ph_res'; auto.
  - rewrite effects_app. simpl. rewrite app_nil_r. auto.
  - intros u c' E. tcase u t; [discriminate|eauto].
  - intros u c' p mm' E. tcase u t; [discriminate|]. exact (i_in0 _ _ _ _ E).
  - intros u E. destruct (i_writer0 u E) as (A & c' & p & mm' & B & C & D). split; auto.
    assert (u <> t) by (intros ->; congruence). exists c', p, mm'. rewrite tset_neq by auto. repeat split; auto.
    eapply winv_mono; eauto. intros y F. split; auto. eapply fresh_mono; eauto.
    + intros Y. destruct (OW _ Y); eauto.
    + intros v X. apply priv_tset in X as (_ & X); eauto.
  - intros y Y. destruct (OW _ Y) as [Z|Z]; [auto|]. destruct (i_priv0 _ _ Z) as (A & B & _). auto.
  - intros u mm' X. apply priv_tset in X as (N & X); auto. destruct (i_priv0 _ _ X) as (A & B & C & D). repeat split; auto.
    + intros Y. destruct (OW _ Y) as [Z|Z]; [auto|]. apply N. symmetry. eapply D; eauto.
    + intros v Y. apply priv_tset in Y as (N2 & Y); auto.
Qed.

Lemma inv_client : forall m w rs th ow h r g x M, invL (mkSys m w rs th ow h) x M -> In r ow -> okmap g ->
  invL (mkSys (store m r g) w rs th ow h) x M.
Proof.
  intros m w rs th ow h r g x M I Hr G. destruct I. simpl in *.
  destruct (i_owned0 _ Hr) as (_ & NC).
  assert (HH : here (store m r g) = here m).
  { unfold here, store, hset. simpl. destruct (Nat.eqb_spec (cur m) r); congruence. }
  assert (HX : forall y, y <> r -> heap (store m r g) y = heap m y).
  { intros y N. unfold store, hset. simpl. destruct (Nat.eqb_spec y r); congruence. }
  constructor; cbn [mem writer readers thread owned hist]; auto.
  - intros u. specialize (i_phase0 u). destruct (th u) as [| | |c r0 mm] eqn:T; cbn [phaseOf] in *; auto.
    destruct r0; cbn [observe] in *; auto. unfold store, hset; simpl; destruct (Nat.eqb_spec mm r) as [->|]; auto.
    exfalso. destruct (i_priv0 u r) as (_ & _ & C & _); [now rewrite T|auto].
  - intros y. unfold store, hset. simpl. destruct (Nat.eqb y r); auto.
  - intros u c p mm E. specialize (i_in0 _ _ _ _ E). destruct (lockMode K V c); auto. now rewrite HH.
  - intros u E. destruct (i_writer0 u E) as (A & c' & p & mm' & B & C & D). split; auto.
    exists c', p, mm'. repeat split; auto. eapply winv_mono; eauto. intros y (F1 & F2 & F3 & F4).
    assert (y <> r) by congruence. split; [auto|]. repeat split; auto.
  - rewrite HH. auto.
Qed.

(** A step of the writer: the other goroutines and the handed out maps see nothing. *)
Lemma writer_common : forall m rs th ow h t c p mm x M m' p' mm', invL (mkSys m (Some t) rs th ow h) x M ->
  th t = TIn c p mm -> lockMode K V c = W -> next m <= next m' -> cur m' < next m' ->
  (cur m' = cur m \/ cur m' = next m) -> (forall r, okmap (heap m' r)) ->
  (forall y, y < next m -> y <> cur m -> ~ freshRef m th ow y -> heap m' y = heap m y) ->
  winv M m' (tset K V th t (TIn c p' mm')) ow c p' mm' ->
  invL (mkSys m' (Some t) rs (tset K V th t (TIn c p' mm')) ow h) x M.
Proof.
  intros m rs th ow h t c p mm x M m' p' mm' I T L N C C' O H Wi. destruct I. simpl in *.
  constructor; cbn [mem writer readers thread owned hist]; auto.
  - intros u. tcase u t.
    + specialize (i_phase0 t). now rewrite T in i_phase0.
    + specialize (i_phase0 u). destruct (th u) as [| | |c0 r0 mm0] eqn:E; cbn [phaseOf] in *; auto.
      destruct r0; cbn [observe] in *; auto. rewrite H; auto; destruct (i_priv0 u mm0) as (A & B & _); try (now rewrite E); auto.
      intros (_ & _ & _ & F). apply (F u). now rewrite E.
  - intros u c' E. tcase u t; [discriminate|eauto].
  - intros u c' q mm0 E. tcase u t.
    + injection E as <- <- <-. now rewrite L.
    + specialize (i_in0 _ _ _ _ E). destruct (lockMode K V c'); auto. destruct i_in0 as (_ & X & _). discriminate.
  - intros u E. injection E as <-. destruct (i_writer0 t eq_refl) as (A & _). split; auto.
    exists c, p', mm'. rewrite tset_eq. auto.
  - discriminate.
  - intros r R. destruct (i_owned0 _ R). split; lia.
  - intros u mm0 X. apply priv_tset in X as (N1 & X); auto. destruct (i_priv0 _ _ X) as (A & B & D & F).
    split; [lia|]. split; [lia|]. split; auto. intros v Y. apply priv_tset in Y as (N2 & Y); auto.
Qed.

Lemma inv_access : forall m w rs th ow h t c p mm m' mm' p' x M, invL (mkSys m w rs th ow h) x M -> th t = TIn c p mm ->
  pstep m mm p m' mm' p' -> invL (mkSys m' w rs (tset K V th t (TIn c p' mm')) ow h) x M.
Proof.
  intros m w rs th ow h t c p mm m' mm' p' x M I T S. pose proof I as J.
  pose proof (i_in _ _ _ I _ _ _ _ T) as X. simpl in X. destruct (lockMode K V c) eqn:L.
  - destruct X as (A & -> & SC & P & B). destruct (read_step _ _ _ _ _ _ S P) as (-> & P').
    destruct I. simpl in *. specialize (i_free0 eq_refl). subst M.
    destruct (cont_step _ _ _ _ _ _ (fun m' r => does c (abs (here m)) m' (ORes r)) S) as (_ & B' & _ & -> & _); auto.
    { apply i_ok0. } { now apply pure_plain_top. }
    constructor; simpl; auto.
    + intros u. tcase u t; auto. specialize (i_phase0 t). now rewrite T in i_phase0.
    + intros u c' E. tcase u t; [discriminate|eauto].
    + intros u c' q mm0 E. tcase u t.
      * injection E as <- <- <-. rewrite L. auto.
      * exact (i_in0 _ _ _ _ E).
    + discriminate.
    + apply (priv_thread m th ow t); auto.
  - subst w. destruct (i_writer _ _ _ I t eq_refl) as (A & c' & q & mm0 & B & _ & Wi). simpl in B, Wi, A. rewrite T in B.
    injection B as <- <- <-.
    assert (O : forall r, okmap (heap m r)) by apply I.
    assert (C : cur m < next m) by apply I.
    assert (OW : forall r, In r ow -> r < next m /\ r <> cur m) by apply I.
    assert (PR : forall u y, privOf (th u) = Some y -> y < next m /\ y <> cur m) by (intros u y Y; split; apply (i_priv _ _ _ I u y Y)).
    assert (FT : forall m0 y, freshRef m0 th ow y -> freshRef m0 (tset K V th t (TIn c p' mm')) ow y)
      by (intros; now apply fresh_thread).
    assert (HH : forall r g, here (mkMem (hset (heap m) r g) (next m) (cur m)) = if Nat.eqb (cur m) r then g else here m) by reflexivity.
    inversion Wi; subst.
    + (* a method without local map *)
      destruct (cont_step _ _ _ _ _ _ (fun m' r => does c M m' (ORes r)) S) as (T' & B' & O' & -> & N' & C' & H'); auto.
      { apply O. }
      eapply writer_common; eauto; try lia.
      * intros r. destruct (Nat.eq_dec r (cur m)) as [->|E]; [rewrite <- C'; exact O'|rewrite H'; auto].
      * apply wi_simple; auto.
    + inversion S; subst. eapply writer_common; eauto; simpl; try lia.
      * intros r. unfold hset. destruct (Nat.eqb r (next m)); [constructor|auto].
      * intros y Y _ _. unfold hset. destruct (Nat.eqb_spec y (next m)); [lia|auto].
      * apply wi_reset2. unfold here, hset. simpl. now rewrite Nat.eqb_refl.
    + inversion S.
    + inversion S; subst. eapply writer_common; eauto. apply wi_mr2; auto.
    + inversion S; subst. eapply writer_common; eauto; simpl; try lia.
      * intros r. unfold hset. destruct (Nat.eqb r (next m)); [constructor|auto].
      * intros y Y _ _. unfold hset. destruct (Nat.eqb_spec y (next m)); [lia|auto].
      * apply wi_mr3.
        -- unfold here, hset. simpl. destruct (Nat.eqb_spec (cur m) (next m)); [lia|auto].
        -- unfold here, hset. simpl. now rewrite Nat.eqb_refl.
        -- apply fresh_thread; auto. split; [simpl; lia|]. split; [simpl; lia|]. split.
           ++ intros Y. destruct (OW _ Y). congruence.
           ++ intros u Y. destruct (PR _ _ Y). congruence.
    + inversion S.
    + inversion S; subst. eapply writer_common; eauto; simpl; try lia.
      * intros r. unfold hset. destruct (Nat.eqb r (next m)); [constructor|auto].
      * intros y Y _ _. unfold hset. destruct (Nat.eqb_spec y (next m)); [lia|auto].
      * assert (E : here (mkMem (hset (heap m) (next m) []) (Datatypes.S (next m)) (cur m)) = here m).
        { unfold here, hset. simpl. destruct (Nat.eqb_spec (cur m) (next m)); [lia|auto]. }
        apply wi_cl2; rewrite ?E; auto.
        -- apply fresh_thread; auto. split; [simpl; lia|]. split; [simpl; lia|]. split.
           ++ intros Y. destruct (OW _ Y). lia.
           ++ intros u Y. destruct (PR _ _ Y). lia.
        -- intros e [].
        -- intros e. unfold hset. simpl. rewrite Nat.eqb_refl. tauto.
    + match goal with F : freshRef m th ow mm |- _ => rename F into FR; destruct FR as (F1 & F2 & F3 & F4) end.
      inversion S; subst.
      * assert (E : here (store m mm' (mset k v (heap m mm'))) = here m).
        { unfold here, store, hset. simpl. destruct (Nat.eqb_spec (cur m) mm'); [congruence|auto]. }
        eapply writer_common; eauto; simpl; try lia.
        -- intros r. unfold hset. destruct (Nat.eqb r mm'); [now apply okmap_set|auto].
        -- intros y Y1 Y2 Y3. unfold hset. destruct (Nat.eqb_spec y mm') as [->|]; auto. exfalso. apply Y3. repeat split; auto.
        -- apply wi_cl2; rewrite ?E; auto.
           ++ apply fresh_thread; auto. repeat split; auto.
           ++ intros e Y. apply in_app_or in Y as [Y|[<-|[]]]; auto.
           ++ intros e. unfold store, hset. simpl. rewrite Nat.eqb_refl.
              match goal with Y : forall e, In e (heap m mm') <-> In e seen |- _ => rename Y into HE end.
              assert (N : ~ In k (map fst seen)) by (intros Y; apply seenKey_true in Y; congruence).
              unfold Mmap_Model.mset. simpl. rewrite in_app_iff. simpl. split.
              ** intros [<-|Y]; auto. apply in_del in Y as (Y & _). apply HE in Y. auto.
              ** intros [Y|[<-|[]]]; auto. right. apply HE in Y as Z.
                 assert (fst e <> k) by (intros <-; apply N; now apply in_map).
                 clear - Keqb_spec Z H. induction (heap m mm') as [|[a b] l IH]; simpl in *; [contradiction|].
                 destruct Z as [<-|Z]; simpl in *.
                 --- rewrite eqb_neq by congruence. now left.
                 --- destruct (Keqb k a); [auto|right; auto].
      * eapply writer_common; eauto; try lia. apply wi_cl3; auto.
        -- apply fresh_thread; auto. repeat split; auto.
        -- match goal with Y : forall e, In e (heap m' mm') <-> In e seen |- _ => rename Y into HE end.
           intros (k & v). rewrite HE. split; [auto|]. intros Y.
           match goal with Z : forall k v, In (k, v) (here m') -> _ |- _ => pose proof (Z _ _ Y) as X end.
           apply seenKey_true in X. apply in_map_iff in X as ((k2 & v2) & E & X). simpl in E. subst.
           match goal with Z : incl seen (here m') |- _ => pose proof (Z _ X) as X2 end.
           apply in_mget in X2; [|apply O]. apply in_mget in Y; [|apply O]. congruence.
    + inversion S.
Qed.

Theorem inv_steps : forall s, steps (sys0 K V) s -> exists x M, invL s x M.
Proof.
  intros s H. remember (sys0 K V) as s0 eqn:E. induction H as [|s1 s2 s3 H IH S]; subst; [apply inv0|].
  destruct (IH eq_refl) as (x & M & I). destruct S.
  - eexists. eexists. eapply inv_call; eauto.
  - eexists. eexists. eapply inv_rlock; eauto.
  - eexists. eexists. eapply inv_lock; eauto.
  - eexists. eexists. eapply inv_access; eauto.
  - eapply inv_unlock; eauto.
  - eexists. eexists. eapply inv_return; eauto.
  - eexists. eexists. eapply inv_client; eauto.
Qed.
End proofs.
