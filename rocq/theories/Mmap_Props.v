(** C15: the locked map is an atomic map. *)
From Coq Require Import List Bool Arith Lia Permutation.
From Verif Require Import Mmap_Model Mmap_Spec Mmap_Proofs.
Import ListNotations.

(** Every reachable history of any number of goroutines is linearizable. *)
Theorem C15_linearizable : forall (K V : Type) (Keqb : K -> K -> bool),
  (forall a b, reflect (a = b) (Keqb a b)) ->
  forall s, steps K V Keqb (sys0 K V) s -> linearizable K V (hist K V s).
Proof.
  intros K V Keqb E s H. destruct (inv_steps K V Keqb E s H) as (x & M & I).
  exists x, M. split; [apply I|]. split; [|apply I]. intros t. eexists. apply I.
Qed.
Print Assumptions C15_linearizable.

Section once.
Variables K V : Type.
Variable Keqb : K -> K -> bool.
Variable Veqb : V -> V -> bool.
Hypothesis Keqb_spec : forall a b, reflect (a = b) (Keqb a b).
Hypothesis Veqb_spec : forall a b, reflect (a = b) (Veqb a b).
Notation call := (call K V). Notation outcome := (outcome K V). Notation xevent := (xevent K V). Notation phases := (phases K V).
Arguments XE {K V}. Arguments XLin {K V}. Arguments EInv {K V}. Arguments ERes {K V}.
Arguments PhIdle {K V}. Arguments PhCalled {K V}. Arguments PhDone {K V}.
Notation lastCall := (lastCall K V).

Definition trans (t : nat) (p : phase K V) (e : xevent) (p' : phase K V) : Prop :=
  match e with
  | XE (EInv u c) => if Nat.eq_dec u t then p = PhIdle /\ p' = PhCalled c else p' = p
  | XLin u c o => if Nat.eq_dec u t then p = PhCalled c /\ p' = PhDone o else p' = p
  | XE (ERes u o) => if Nat.eq_dec u t then p = PhDone o /\ p' = PhIdle else p' = p
  end.
Lemma phases_snoc : forall t x e p', phases t (x ++ [e]) p' -> exists p, phases t x p /\ trans t p e p'.
Proof.
  intros t x e p' H. inversion H as [E|x0 c H0 E|x0 c o H0 E|x0 o H0 E|x0 u c p N H0 E|x0 u c o p N H0 E|x0 u o p N H0 E];
    [destruct x; discriminate| | | | | |]; apply app_inj_tail in E as (-> & <-); eexists; (split; [eassumption|]); simpl;
    destruct Nat.eq_dec; try contradiction; auto; congruence.
Qed.
Lemma phases_nil : forall t p, phases t [] p -> p = PhIdle.
Proof. intros t p H. inversion H; auto; destruct x; discriminate. Qed.
Lemma lastCall_snoc : forall t h e, lastCall t (h ++ [e]) =
  match e with EInv u c => if Nat.eqb u t then Some c else lastCall t h | _ => lastCall t h end.
Proof.
  induction h as [|a r IH]; intros e.
  - simpl. destruct e as [u c|]; auto. 
  - simpl. rewrite IH. destruct e as [u c|]; auto. destruct (Nat.eqb u t); auto.
Qed.
Lemma completed_snoc : forall h pre e, completedFrom K V pre (h ++ [e]) = completedFrom K V pre h ++
  match e with ERes t o => match lastCall t (pre ++ h) with Some c => [(c, o)] | None => [] end | _ => [] end.
Proof.
  induction h as [|a r IH]; intros pre e; simpl.
  - rewrite !app_nil_r. destruct e; auto.
  - rewrite IH, <- app_assoc. simpl. now rewrite <- app_assoc.
Qed.
Lemma erase_snoc : forall x e, erase K V (x ++ [e]) = erase K V x ++ match e with XE e => [e] | _ => [] end.
Proof. intros. unfold erase. rewrite flat_map_app. simpl. destruct e; simpl; now rewrite ?app_nil_r. Qed.
Lemma effects_snoc : forall x e, effects K V (x ++ [e]) = effects K V x ++ match e with XE _ => [] | XLin _ c o => [(c, o)] end.
Proof. intros. unfold effects. rewrite flat_map_app. simpl. destruct e; simpl; now rewrite ?app_nil_r. Qed.

(** Effects are the completed calls plus the calls between effect and response;
    and every effect was invoked. *)
Lemma effects_split : forall x, (forall t, exists p, phases t x p) ->
  exists pend : list (nat * (call * outcome)),
    Permutation (effects K V x) (completed K V (erase K V x) ++ map snd pend) /\ NoDup (map fst pend) /\
    (forall t c o, In (t, (c, o)) pend <-> (phases t x (PhDone o) /\ lastCall t (erase K V x) = Some c)) /\
    (forall t c, phases t x (PhCalled c) -> lastCall t (erase K V x) = Some c) /\
    (forall t o, phases t x (PhDone o) -> lastCall t (erase K V x) <> None) /\
    (forall t p q, phases t x p -> phases t x q -> p = q).
Proof.
  induction x as [|e x IH] using rev_ind; intros W.
  - exists []. simpl. split; [constructor|]. split; [constructor|]. split.
    { intros t c o. split; [intros []|]. intros (H & _). apply phases_nil in H. discriminate. }
    split; [|split]; intros t; intros; repeat match goal with H : phases _ [] _ |- _ => apply phases_nil in H end; congruence.
  - destruct IH as (pend & P & ND & HP & HC & HD & HU).
    { intros t. destruct (W t) as (p' & H). apply phases_snoc in H as (p & H & _). eauto. }
    assert (HU' : forall t p q, phases t (x ++ [e]) p -> phases t (x ++ [e]) q -> p = q).
    { intros t p q A B. apply phases_snoc in A as (p0 & A & TA). apply phases_snoc in B as (q0 & B & TB).
      pose proof (HU _ _ _ A B). subst q0. destruct e as [[u c|u o]|u c o]; simpl in TA, TB; destruct Nat.eq_dec; intuition congruence. }
    destruct e as [[u c|u o]|u c o].
    + (* invocation *)
      exists pend. rewrite erase_snoc, effects_snoc, app_nil_r. unfold completed. rewrite completed_snoc, app_nil_r. split; [exact P|]. split; auto.
      assert (NU : forall c o, ~ In (u, (c, o)) pend).
      { intros c0 o0 X. apply HP in X as (X & _). destruct (W u) as (p' & H). apply phases_snoc in H as (p & H & T).
        simpl in T. destruct Nat.eq_dec; [|congruence]. destruct T as (-> & _). pose proof (HU _ _ _ X H). discriminate. }
      split; [|split; [|split; [|exact HU']]].
      * intros t c0 o0. rewrite lastCall_snoc. destruct (Nat.eqb_spec u t) as [->|N].
        -- split; [intros X; exfalso; eapply NU; eauto|]. intros (H & _). apply phases_snoc in H as (p & H & T). simpl in T.
           destruct Nat.eq_dec; [|congruence]. intuition discriminate.
        -- rewrite HP. split; intros (A & B); split; auto.
           ++ apply ph_inv'; auto.
           ++ apply phases_snoc in A as (p & A & T). simpl in T. destruct Nat.eq_dec; [congruence|]. now subst.
      * intros t c0 H. rewrite lastCall_snoc. apply phases_snoc in H as (p & H & T). simpl in T.
        destruct Nat.eq_dec as [->|N]; [rewrite Nat.eqb_refl; intuition congruence|].
        destruct (Nat.eqb_spec u t); [congruence|]. subst. auto.
      * intros t o0 H. rewrite lastCall_snoc. apply phases_snoc in H as (p & H & T). simpl in T.
        destruct Nat.eq_dec as [->|N]; [intuition discriminate|]. destruct (Nat.eqb_spec u t); [congruence|]. subst. eauto.
    + (* response *)
      destruct (W u) as (p' & H). apply phases_snoc in H as (p & H & T). simpl in T. destruct Nat.eq_dec; [|congruence].
      destruct T as (-> & _). destruct (lastCall u (erase K V x)) as [c|] eqn:L; [|exfalso; eapply HD; eauto].
      assert (In (u, (c, o)) pend) as X by (apply HP; auto). apply in_split in X as (p1 & p2 & ->).
      exists (p1 ++ p2). rewrite erase_snoc, effects_snoc, app_nil_r. unfold completed. rewrite completed_snoc. simpl. rewrite L.
      rewrite map_app in *. simpl in *. pose proof (NoDup_remove_1 _ _ _ ND) as ND1. pose proof (NoDup_remove_2 _ _ _ ND) as ND2.
      split; [|split; [|split; [|split; [|split; [|exact HU']]]]].
      * rewrite P. rewrite <- app_assoc. unfold completed. apply Permutation_app_head. simpl. rewrite <- Permutation_middle. reflexivity.
      * now rewrite map_app.
      * intros t c0 o0. rewrite lastCall_snoc. split.
        -- intros X. assert (N : u <> t).
           { intros ->. apply ND2. rewrite <- map_app. change t with (fst (t, (c0, o0))). now apply in_map. }
           assert (Y : In (t, (c0, o0)) (p1 ++ (u, (c, o)) :: p2)) by (rewrite in_app_iff in *; simpl; tauto).
           apply HP in Y as (Y1 & Y2). split; auto. apply ph_res'; auto.
        -- intros (A & B). apply phases_snoc in A as (p & A & T). simpl in T. destruct Nat.eq_dec as [->|N]; [intuition discriminate|].
           subst. assert (Y : In (t, (c0, o0)) (p1 ++ (u, (c, o)) :: p2)) by (apply HP; auto).
           rewrite in_app_iff in *. simpl in Y. destruct Y as [Y|[Y|Y]]; auto. congruence.
      * intros t c0 A. rewrite lastCall_snoc. apply phases_snoc in A as (p & A & T). simpl in T.
        destruct Nat.eq_dec as [->|N]; [intuition discriminate|]. subst. auto.
      * intros t o0 A. rewrite lastCall_snoc. apply phases_snoc in A as (p & A & T). simpl in T.
        destruct Nat.eq_dec as [->|N]; [intuition discriminate|]. subst. eauto.
    + (* effect *)
      destruct (W u) as (p' & H). apply phases_snoc in H as (p & H & T). simpl in T. destruct Nat.eq_dec; [|congruence].
      destruct T as (-> & _). pose proof (HC _ _ H) as L.
      exists ((u, (c, o)) :: pend). rewrite erase_snoc, effects_snoc, app_nil_r.
      split; [|split; [|split; [|split; [|split; [|exact HU']]]]].
      * simpl. rewrite P. rewrite <- Permutation_cons_append. apply Permutation_middle.
      * simpl. constructor; auto. intros X. apply in_map_iff in X as ((t & c0 & o0) & E & X). simpl in E. subst.
        apply HP in X as (X & _). pose proof (HU _ _ _ H X). discriminate.
      * intros t c0 o0. split.
        -- intros [X|X].
           ++ injection X as <- <- <-. split; auto. now apply ph_lin.
           ++ apply HP in X as (A & B). split; auto. apply ph_lin'; auto. intros ->. pose proof (HU _ _ _ H A). discriminate.
        -- intros (A & B). apply phases_snoc in A as (p & A & T). simpl in T. destruct Nat.eq_dec as [->|N].
           ++ destruct T as (-> & T). injection T as <-. left. congruence.
           ++ subst. right. apply HP. auto.
      * intros t c0 A. apply phases_snoc in A as (p & A & T). simpl in T.
        destruct Nat.eq_dec as [->|N]; [intuition discriminate|]. subst. auto.
      * intros t o0 A. apply phases_snoc in A as (p & A & T). simpl in T.
        destruct Nat.eq_dec as [->|N]; [|subst; eauto]. destruct T as (-> & _). rewrite (HC _ _ A). discriminate.
Qed.

(** Each effect belongs to an invocation. *)
Lemma effects_invoked : forall x (P : call -> bool), (forall t, exists p, phases t x p) ->
  exists called : list (nat * call),
    Permutation (map fst (effects K V x) ++ map snd called) (invoked K V (erase K V x)) /\ NoDup (map fst called) /\
    (forall t c, In (t, c) called <-> phases t x (PhCalled c)).
Proof.
  intros x P W. assert (HU : forall t p q, phases t x p -> phases t x q -> p = q) by (destruct (effects_split x W) as (? & ? & ? & ? & ? & ? & ?); auto).
  revert W HU. induction x as [|e x IH] using rev_ind; intros W HU'.
  - exists []. simpl. split; [constructor|]. split; [constructor|]. intros t c. split; [intros []|]. intros H. apply phases_nil in H. discriminate.
  - assert (W0 : forall t, exists p, phases t x p).
    { intros t. destruct (W t) as (p' & H). apply phases_snoc in H as (p & H & _). eauto. }
    assert (HU : forall t p q, phases t x p -> phases t x q -> p = q) by (destruct (effects_split x W0) as (? & ? & ? & ? & ? & ? & ?); auto).
    destruct (IH W0 HU) as (cl & PM & ND & HC).
    assert (IS : forall e, invoked K V (erase K V x ++ [e]) = invoked K V (erase K V x) ++ match e with EInv _ c => [c] | _ => [] end).
    { intros e0. unfold invoked. rewrite flat_map_app. simpl. destruct e0; simpl; now rewrite ?app_nil_r. }
    destruct e as [[u c|u o]|u c o]; rewrite erase_snoc, effects_snoc; destruct (W u) as (p' & H); apply phases_snoc in H as (p & H & T);
      simpl in T; (destruct Nat.eq_dec; [|congruence]); destruct T as (-> & _).
    + exists ((u, c) :: cl). rewrite IS, app_nil_r. split; [|split].
      * simpl. rewrite <- Permutation_middle, PM. apply Permutation_cons_append.
      * simpl. constructor; auto. intros X. apply in_map_iff in X as ((t & c0) & E & X). simpl in E. subst. apply HC in X.
        pose proof (HU _ _ _ H X). discriminate.
      * intros t c0. split.
        -- intros [X|X]; [injection X as <- <-; now apply ph_inv|]. apply HC in X. apply ph_inv'; auto. intros ->.
           pose proof (HU _ _ _ H X). discriminate.
        -- intros A. apply phases_snoc in A as (p & A & T). simpl in T. destruct Nat.eq_dec as [->|N].
           ++ destruct T as (_ & T). injection T as <-. now left.
           ++ subst. right. now apply HC.
    + exists cl. rewrite IS, !app_nil_r. split; auto. split; auto. intros t c0. rewrite HC. split; intros A.
      * apply ph_res'; auto. intros ->. pose proof (HU _ _ _ H A). discriminate.
      * apply phases_snoc in A as (p & A & T). simpl in T. destruct Nat.eq_dec as [->|N]; [intuition discriminate|]. now subst.
    + assert (X : In (u, c) cl) by now apply HC. apply in_split in X as (p1 & p2 & ->). rewrite map_app in ND. simpl in ND.
      pose proof (NoDup_remove_1 _ _ _ ND) as ND1. pose proof (NoDup_remove_2 _ _ _ ND) as ND2.
      exists (p1 ++ p2). rewrite app_nil_r. split; [|split].
      * rewrite map_app. simpl. rewrite <- PM, !map_app. simpl. rewrite <- app_assoc. simpl. apply Permutation_app_head.
        apply Permutation_middle.
      * now rewrite map_app.
      * intros t c0. split.
        -- intros X. assert (N : u <> t).
           { intros ->. apply ND2. rewrite <- map_app. change t with (fst (t, c0)). now apply in_map. }
           apply ph_lin'; auto. apply HC. rewrite in_app_iff in *. simpl. tauto.
        -- intros A. apply phases_snoc in A as (p & A & T). simpl in T. destruct Nat.eq_dec as [->|N]; [intuition discriminate|].
           subst. apply HC in A. rewrite in_app_iff in *. simpl in A. destruct A as [A|[A|A]]; auto. congruence.
Qed.

Notation takes := (takes K V Keqb Veqb). Notation sets := (sets K V Keqb Veqb). Notation isUpdate := (isUpdate K V).
Definition count {A} (f : A -> bool) (l : list A) : nat := length (filter f l).
Lemma count_app : forall A (f : A -> bool) a b, count f (a ++ b) = count f a + count f b.
Proof. intros. unfold count. rewrite filter_app, app_length. auto. Qed.
Lemma count_perm : forall A (f : A -> bool) a b, Permutation a b -> count f a = count f b.
Proof.
  intros A f a b H. unfold count. induction H; simpl; auto; [destruct (f x); simpl; auto|destruct (f x), (f y); simpl; auto|congruence].
Qed.
Lemma seq_takes : forall k v l m m', sequential K V l m m' -> (forall c o, In (c, o) l -> isUpdate c = false) ->
  m = emptyMap K V -> count (takes k v) l + (match m' k with Some v' => if Veqb v v' then 1 else 0 | None => 0 end) <= count (fun x => sets k v (fst x)) l.
Proof.
  intros k v l m m' H. induction H as [m|l c o m m1 m' H IH D]; intros NU ->; [simpl; auto|].
  rewrite !count_app. specialize (IH (fun c o X => NU c o (in_or_app _ _ _ (or_introl X))) eq_refl).
  assert (NUc : isUpdate c = false) by (apply (NU c o); rewrite in_app_iff; simpl; auto). clear NU.
  assert (SM : forall a b : amap K V, same K V a b -> b k = a k) by (intros a b X; apply X).
  destruct D; unfold count in *; simpl in *; try discriminate;
    try (match goal with X : same K V _ _ |- _ => rewrite (SM _ _ X) end; unfold emptyMap; lia).
  - destruct H0 as (A & B). destruct (Keqb_spec k k0) as [<-|N]; simpl.
    + rewrite A. destruct (Veqb v v0); simpl; destruct (m k) as [w|]; try destruct (Veqb v w); lia.
    + rewrite B by congruence. lia.
  - destruct H0 as (A & B). destruct (Keqb_spec k k0) as [<-|N]; simpl; [rewrite A; lia|rewrite B by congruence; lia].
  - destruct H0 as (A & B). destruct (m k0) as [w|] eqn:E; simpl.
    + destruct (Keqb_spec k k0) as [<-|N]; simpl; [|rewrite B by congruence; lia].
      rewrite A, E in *. destruct (Veqb v w); simpl; lia.
    + destruct (Keqb_spec k k0) as [<-|N]; simpl; [rewrite A; lia|rewrite B by congruence; lia].
Qed.

(** If no Update is used, GetValNDel(k) returns the value v at most as often as
    Set(k, v) was called: no stored value is handed to two callers. *)
Theorem C15_handed_out_once : forall s k v, steps K V Keqb (sys0 K V) s ->
  (forall c, In c (invoked K V (hist K V s)) -> isUpdate c = false) ->
  count (takes k v) (completed K V (hist K V s)) <= count (sets k v) (invoked K V (hist K V s)).
Proof.
  intros s k v H NU. destruct (C15_linearizable K V Keqb Keqb_spec s H) as (x & m & E & W & Q). rewrite <- E in *.
  destruct (effects_split x W) as (pend & P & _). destruct (effects_invoked x isUpdate W) as (cl & PC & _).
  assert (NU' : forall c o, In (c, o) (effects K V x) -> isUpdate c = false).
  { intros c o X. apply NU. eapply Permutation_in; [exact PC|]. apply in_or_app. left. change c with (fst (c, o)). now apply in_map. }
  pose proof (seq_takes k v _ _ _ Q NU' eq_refl) as L. rewrite (count_perm _ _ _ _ P) in L at 1. rewrite count_app in L.
  assert (count (fun x => sets k v (fst x)) (effects K V x) <= count (sets k v) (invoked K V (erase K V x))).
  { rewrite <- (count_perm _ _ _ _ PC), count_app.
    enough (count (sets k v) (map fst (effects K V x)) = count (fun x => sets k v (fst x)) (effects K V x)) by lia.
    unfold count. clear. induction (effects K V x) as [|a l IH]; simpl; auto. destruct (sets k v (fst a)); simpl; auto. }
  lia.
Qed.
End once.
Print Assumptions C15_handed_out_once.

(** ** A panic in the function given to Update leaves the lock held: from then on
    no call of any goroutine ever returns. *)
Theorem C15_panicking_update_refuted : forall (K V : Type) (Keqb : K -> K -> bool),
  exists s, steps K V Keqb (sys0 K V) s /\ hist K V s = [EInv K V 0 (Update K V (PPanic K V))] /\
  forall s', steps K V Keqb s s' -> forall e, In e (hist K V s') -> exists t c, e = EInv K V t c.
Proof.
  intros K V Keqb.
  set (s := mkSys K V (mkMem K V (fun _ => []) 1 0) (Some 0) [] (tset K V (tset K V (fun _ => TIdle K V) 0 (TCalled K V (Update K V (PPanic K V)))) 0
     (TIn K V (Update K V (PPanic K V)) (PPanic K V) 0)) [] [EInv K V 0 (Update K V (PPanic K V))]).
  exists s. split; [|split; [reflexivity|]].
  - eapply steps_step; [eapply steps_step; [apply steps_refl|]|].
    + apply (st_call K V Keqb _ _ _ _ _ _ 0 (Update K V (PPanic K V))); [reflexivity|exact I].
    + apply (st_lock K V Keqb (mkMem K V (fun _ => []) 1 0) _ [] [EInv K V 0 (Update K V (PPanic K V))] 0 (Update K V (PPanic K V))); reflexivity.
  - intros s' H.
    assert (G : writer K V s' = Some 0 /\ (exists c, thread K V s' 0 = TIn K V c (PPanic K V) 0) /\
      (forall t, t <> 0 -> thread K V s' t = TIdle K V \/ exists c, thread K V s' t = TCalled K V c) /\
      (forall e, In e (hist K V s') -> exists t c, e = EInv K V t c)); [|apply G].
    remember s as s0 eqn:E. induction H as [|s1 s2 s3 H IH S]; subst.
    + simpl. repeat split; auto; [eexists; reflexivity| |].
      * intros [|t] N; [congruence|now left].
      * intros e [<-|[]]. eauto.
    + destruct (IH eq_refl) as (A & (c0 & B) & C & D). clear IH H.
      destruct S; simpl in *; try discriminate.
      * assert (t <> 0) by (intros ->; congruence). repeat split; auto.
        -- exists c0. rewrite tset_neq by congruence; exact B.
        -- intros u N. destruct (Nat.eq_dec u t) as [->|N2]; [rewrite tset_eq; eauto|rewrite tset_neq by auto; auto].
        -- intros e X. apply in_app_or in X as [X|[<-|[]]]; eauto.
      * destruct (Nat.eq_dec t 0) as [->|N].
        -- rewrite B in H. injection H as <- <- <-. inversion H0.
        -- destruct (C t N) as [X|(c1 & X)]; rewrite H in X; discriminate.
      * destruct (Nat.eq_dec t 0) as [->|N]; [congruence|]. destruct (C t N) as [X|(c1 & X)]; rewrite H in X; discriminate.
      * destruct (Nat.eq_dec t 0) as [->|N]; [congruence|]. destruct (C t N) as [X|(c1 & X)]; rewrite H in X; discriminate.
      * repeat split; eauto.
Qed.
Print Assumptions C15_panicking_update_refuted.

(** * Non-vacuity: two goroutines race for the same entry. *)
Definition n0 : call nat nat := Set_ nat nat 7 70.
Definition n1 : call nat nat := GetValNDel nat nat 7.
Example C15_nonvacuous : exists s, steps nat nat Nat.eqb (sys0 nat nat) s /\
  completed nat nat (hist nat nat s) =
    [(n0, ORes nat nat (RUnit nat nat)); (n1, ORes nat nat (RValN nat nat (Some 70) 0)); (n1, ORes nat nat (RValN nat nat None 0))] /\
  hist nat nat s = [EInv nat nat 0 n0; EInv nat nat 1 n1; ERes nat nat 0 (ORes nat nat (RUnit nat nat)); EInv nat nat 2 n1;
    ERes nat nat 2 (ORes nat nat (RValN nat nat (Some 70) 0)); ERes nat nat 1 (ORes nat nat (RValN nat nat None 0))].
Proof.
  eexists. split.
  { eapply steps_step; [eapply steps_step; [eapply steps_step; [eapply steps_step; [eapply steps_step; [eapply steps_step;
      [eapply steps_step; [eapply steps_step; [eapply steps_step; [eapply steps_step; [eapply steps_step; [eapply steps_step;
      [eapply steps_step; [eapply steps_step; [eapply steps_step; [eapply steps_step; [eapply steps_step; [eapply steps_step;
      [apply steps_refl|]|]|]|]|]|]|]|]|]|]|]|]|]|]|]|]|]|].
    - apply (st_call nat nat Nat.eqb _ _ _ _ _ _ 0 n0); [reflexivity|exact I].
    - apply (st_call nat nat Nat.eqb _ _ _ _ _ _ 1 n1); [reflexivity|exact I].
    - apply (st_lock nat nat Nat.eqb _ _ _ _ 0 n0); reflexivity.
    - eapply (st_access nat nat Nat.eqb _ _ _ _ _ _ 0); [reflexivity|]. simpl. constructor.
    - eapply (st_unlock nat nat Nat.eqb _ _ _ _ _ _ 0). reflexivity.
    - eapply (st_return nat nat Nat.eqb _ _ _ _ _ _ 0). reflexivity.
    - apply (st_call nat nat Nat.eqb _ _ _ _ _ _ 2 n1); [reflexivity|exact I].
    - apply (st_lock nat nat Nat.eqb _ _ _ _ 2 n1); reflexivity.
    - eapply (st_access nat nat Nat.eqb _ _ _ _ _ _ 2); [reflexivity|]. simpl. constructor.
    - eapply (st_access nat nat Nat.eqb _ _ _ _ _ _ 2); [reflexivity|]. simpl. constructor.
    - eapply (st_access nat nat Nat.eqb _ _ _ _ _ _ 2); [reflexivity|]. simpl. constructor.
    - eapply (st_unlock nat nat Nat.eqb _ _ _ _ _ _ 2). reflexivity.
    - eapply (st_return nat nat Nat.eqb _ _ _ _ _ _ 2). reflexivity.
    - apply (st_lock nat nat Nat.eqb _ _ _ _ 1 n1); reflexivity.
    - eapply (st_access nat nat Nat.eqb _ _ _ _ _ _ 1); [reflexivity|]. simpl. constructor.
    - eapply (st_access nat nat Nat.eqb _ _ _ _ _ _ 1); [reflexivity|]. simpl. constructor.
    - eapply (st_unlock nat nat Nat.eqb _ _ _ _ _ _ 1). reflexivity.
    - eapply (st_return nat nat Nat.eqb _ _ _ _ _ _ 1). reflexivity. }
  split; reflexivity.
Qed.
