(** The walk of one map: exactly the waiting tickets that have an index, in its order. *)
From Coq Require Import List ZArith Bool Arith Lia Sorted.
Import ListNotations.
From Verif Require Import Wait_Model Wait_Spec Wait_Proofs.
Local Open Scope Z_scope.

Definition lt1 (a b : Z * nat) : Prop := fst a < fst b.

Lemma put_has : forall k v l, In (k, v) (put k v l).
Proof.
  induction l as [|x l IH]; cbn [put]; [left; reflexivity|].
  destruct (k =? fst x); [left; reflexivity|]. destruct (k <? fst x); [left; reflexivity | right; exact IH].
Qed.
Lemma put_keeps : forall k v l j q, In (j, q) l -> j <> k -> In (j, q) (put k v l).
Proof.
  induction l as [|x l IH]; cbn [put]; intros j q H N; [contradiction|].
  destruct (Z.eqb_spec k (fst x)) as [E | E].
  - destruct H as [-> | H]; [cbn in E; congruence | right; exact H].
  - destruct (k <? fst x); [right; exact H|]. destruct H as [-> | H]; [left; reflexivity | right; apply IH; assumption].
Qed.
Lemma remove_keeps : forall k l j q, In (j, q) l -> j <> k -> In (j, q) (remove k l).
Proof. intros k l j q H N. apply filter_In. split; [exact H|]. cbn. destruct (Z.eqb_spec j k); [contradiction | reflexivity]. Qed.
Lemma remove_not : forall k l j q, In (j, q) (remove k l) -> j <> k.
Proof. intros k l j q H. apply filter_In in H as [_ H]. cbn in H. destruct (Z.eqb_spec j k); [discriminate | assumption]. Qed.
Lemma put_sorted : forall k v l, StronglySorted lt1 l -> StronglySorted lt1 (put k v l).
Proof.
  induction l as [|x l IH]; cbn [put]; intros H; [repeat constructor|].
  inversion H as [|? ? S F]; subst. destruct (Z.eqb_spec k (fst x)) as [E | E].
  - constructor; [exact S|]. eapply Forall_impl; [|exact F]. intros y Y. unfold lt1 in *. cbn. lia.
  - destruct (Z.ltb_spec k (fst x)) as [L | L].
    + constructor; [exact H|]. constructor; [exact L|]. eapply Forall_impl; [|exact F]. intros y Y. unfold lt1 in *. cbn. lia.
    + constructor; [apply IH, S|]. apply Forall_forall. intros y Y. apply put_In in Y as [-> | Y].
      * unfold lt1. cbn. lia.
      * rewrite Forall_forall in F. apply F, Y.
Qed.
Lemma remove_sorted : forall k l, StronglySorted lt1 l -> StronglySorted lt1 (remove k l).
Proof.
  unfold remove. induction l as [|x l IH]; cbn [filter]; intros H; [constructor|].
  inversion H as [|? ? S F]; subst. destruct (negb (fst x =? k)); [|apply IH, S].
  constructor; [apply IH, S|]. apply Forall_forall. intros y Y. apply filter_In in Y as [Y _]. rewrite Forall_forall in F. apply F, Y.
Qed.

Definition own (h : heap) : Prop := forall p q, tIdx (h p) = tIdx (h q) -> 0 < tIdx (h p) -> p = q.
Definition inv (h : heap) (s : imap) : Prop :=
  (forall k p, In (k, p) (ordered s) -> k = tIdx (h p) /\ 0 < k /\ get (tId (h p)) (byId s) = Some p) /\
  (forall k p, In (k, p) (await s) -> k = tId (h p) /\ get k (byId s) = Some p) /\
  (forall k p, get k (byId s) = Some p -> tId (h p) = k /\ (In (tIdx (h p), p) (ordered s) \/ In (k, p) (await s))) /\
  StronglySorted lt1 (ordered s).

(** put of a ticket under its own index loses no other. *)
Lemma put_own : forall h l p q, own h -> In (tIdx (h q), q) l -> 0 < tIdx (h q) -> In (tIdx (h q), q) (put (tIdx (h p)) p l).
Proof.
  intros h l p q O H L. destruct (Z.eq_dec (tIdx (h q)) (tIdx (h p))) as [E | E]; [|apply put_keeps; assumption].
  rewrite (O q p E L). apply put_has.
Qed.

Lemma inv_set : forall h s p, own h -> inv h s -> (forall q, get (tId (h p)) (byId s) = Some q -> q = p) -> inv h (iset h (tId (h p)) p s).
Proof.
  intros h s p O (A & B & C & D) U.
  assert (A' : forall q, get (tId (h q)) (byId s) = Some q -> get (tId (h q)) (put (tId (h p)) p (byId s)) = Some q).
  { intros q Q. rewrite get_put. destruct (Z.eqb_spec (tId (h p)) (tId (h q))) as [E | E]; [|exact Q].
    f_equal. symmetry. apply U. rewrite E. exact Q. }
  unfold iset. destruct (Z.ltb_spec 0 (tIdx (h p))) as [I | I]; split; [| split; [|split] | | split; [|split]]; cbn [ordered byId await].
  - intros k q H. apply put_In in H as [[= -> ->] | H].
    + split; [reflexivity|]. split; [exact I|]. rewrite get_put, Z.eqb_refl. reflexivity.
    + destruct (A _ _ H) as (-> & L & X). auto.
  - intros k q H. destruct (B _ _ H) as (-> & X). auto.
  - intros k q H. rewrite get_put in H. destruct (Z.eqb_spec (tId (h p)) k) as [E | E].
    + injection H as <-. split; [exact E|]. left. apply put_has.
    + destruct (C _ _ H) as (X & [Y | Y]); split; auto. left. apply put_own; [exact O | exact Y|]. destruct (A _ _ Y) as (_ & L & _). exact L.
  - apply put_sorted, D.
  - intros k q H. destruct (A _ _ H) as (-> & L & X). auto.
  - intros k q H. apply put_In in H as [[= -> ->] | H].
    + split; [reflexivity|]. rewrite get_put, Z.eqb_refl. reflexivity.
    + destruct (B _ _ H) as (-> & X). auto.
  - intros k q H. rewrite get_put in H. destruct (Z.eqb_spec (tId (h p)) k) as [E | E].
    + injection H as <-. split; [exact E|]. right. rewrite <- E. apply put_has.
    + destruct (C _ _ H) as (X & [Y | Y]); split; auto. right. apply put_keeps; [exact Y | congruence].
  - exact D.
Qed.

Lemma inv_del : forall h s p, own h -> inv h s -> (forall q, get (tId (h p)) (byId s) = Some q -> q = p) -> inv h (idel h p s).
Proof.
  intros h s p O (A & B & C & D) U. unfold idel. destruct (get (tId (h p)) (byId s)) as [r|] eqn:E; [|exact (conj A (conj B (conj C D)))].
  assert (R : r = p) by (apply U; reflexivity). subst r.
  split; [|split; [|split]]; cbn [ordered byId await].
  - intros k q H. pose proof (remove_not _ _ _ _ H) as N. apply remove_In in H. destruct (A _ _ H) as (-> & L & X).
    split; [reflexivity|]. split; [exact L|]. rewrite get_remove. destruct (Z.eqb_spec (tId (h p)) (tId (h q))) as [F | F]; [|exact X].
    rewrite F in E. rewrite E in X. injection X as ->. congruence.
  - intros k q H. pose proof (remove_not _ _ _ _ H) as N. apply remove_In in H. destruct (B _ _ H) as (-> & X).
    split; [reflexivity|]. rewrite get_remove. destruct (Z.eqb_spec (tId (h p)) (tId (h q))); [congruence | exact X].
  - intros k q H. rewrite get_remove in H. destruct (Z.eqb_spec (tId (h p)) k) as [F | F]; [discriminate|].
    destruct (C _ _ H) as (X & [Y | Y]); split; auto.
    + left. apply remove_keeps; [exact Y|]. intros Z. destruct (A _ _ Y) as (_ & L & _). rewrite (O q p Z L) in X. congruence.
    + right. apply remove_keeps; [exact Y | congruence].
  - apply remove_sorted, D.
Qed.

Lemma inv_assign : forall h s p i, inv h s -> tIdx (h p) = 0 -> 0 < i -> inv (assign p i h) s.
Proof.
  intros h s p i (A & B & C & D) Z I.
  split; [|split; [|split]].
  - intros k q H. destruct (A _ _ H) as (-> & L & X). assert (q <> p) by (intros ->; lia).
    rewrite assign_P by congruence. auto.
  - intros k q H. rewrite assign_id. apply B, H.
  - intros k q H. rewrite assign_id. destruct (C _ _ H) as (X & [Y | Y]); split; auto. left.
    assert (q <> p). { intros ->. destruct (A _ _ Y) as (_ & L & _). lia. }
    rewrite assign_P by congruence. exact Y.
  - exact D.
Qed.

Lemma inv_repair : forall h s, own h -> inv h s -> inv h (repair h s) /\ (forall k p, In (k, p) (await (repair h s)) -> ~ 0 < tIdx (h p)).
Proof.
  intros h s O. unfold repair.
  assert (K : forall l s, inv h s -> (forall x, In x l -> fst x = tId (h (snd x))) -> (forall k p, In (k, p) (await s) -> 0 < tIdx (h p) -> In (k, p) l) ->
    (forall x, In x l -> exists q, get (fst x) (byId s) = Some q /\ q = snd x) ->
    inv h (fold_left (repairOne h) l s) /\ (forall k p, In (k, p) (await (fold_left (repairOne h) l s)) -> ~ 0 < tIdx (h p))).
  { clear s. induction l as [|[j r] l IH]; cbn [fold_left]; intros s V T L M.
    - split; [exact V|]. intros k p H X. apply (L k p H X).
    - destruct (M (j, r) (or_introl eq_refl)) as (q & Q & ->). cbn [fst snd] in Q.
      pose proof (T (j, r) (or_introl eq_refl)) as J. cbn [fst snd] in J.
      unfold repairOne at 2 4. cbn [fst snd]. rewrite Q. destruct (Z.ltb_spec 0 (tIdx (h r))) as [I | I].
      + apply IH.
        * destruct V as (A & B & C & D). split; [|split; [|split]]; cbn [ordered byId await].
          -- intros k p H. apply put_In in H as [[= -> ->] | H]; [|apply A, H]. split; [reflexivity|]. split; [exact I|]. rewrite <- J. exact Q.
          -- intros k p H. apply remove_In in H. apply B, H.
          -- intros k p H. destruct (C _ _ H) as (X & [Y | Y]); split; auto.
             ++ left. apply put_own; [exact O | exact Y|]. destruct (A _ _ Y) as (_ & Z & _). exact Z.
             ++ destruct (Z.eq_dec k j) as [-> | N].
                ** left. rewrite Q in H. injection H as ->. apply put_has.
                ** right. apply remove_keeps; assumption.
          -- apply put_sorted, D.
        * intros x X. apply T. right. exact X.
        * cbn [await]. intros k p H X. pose proof (remove_not _ _ _ _ H) as N. apply remove_In in H.
          destruct (L _ _ H X) as [[= -> ->] | Y]; [congruence | exact Y].
        * intros x X. apply M. right. exact X.
      + apply IH; [exact V | intros x X; apply T; right; exact X | | intros x X; apply M; right; exact X].
        intros k p H X. destruct (L _ _ H X) as [[= -> ->] | Y]; [lia | exact Y]. }
  intros V. apply K; [exact V | | auto |].
  - intros [k p] H. apply V in H. apply H.
  - intros [k p] H. apply V in H. exists p. split; [apply H | reflexivity].
Qed.

Lemma holder_last : forall f os o id, holder f (os ++ [o]) id =
  match o with OSet p => if f p =? id then Some p else holder f os id | ODel p => if f p =? id then None else holder f os id | _ => holder f os id end.
Proof. intros f os o id. unfold holder. rewrite fold_left_app. reflexivity. Qed.
Lemma index_last : forall os o p, indexOf (os ++ [o]) p = match o with OAssign q i => if Nat.eqb q p then i else indexOf os p | _ => indexOf os p end.
Proof. intros os o p. unfold indexOf. rewrite fold_left_app. reflexivity. Qed.

(** The map by ID, for every history. *)
Lemma run_holder : forall f os, let x := irun (fun p => Tk (f p) 0, newImap) os in
  (forall p, tId (fst x p) = f p) /\ (forall p, tIdx (fst x p) = indexOf os p) /\ forall id, get id (byId (snd x)) = holder f os id.
Proof.
  intros f os. induction os as [|o os IH] using rev_ind; [repeat split; reflexivity|].
  unfold irun in *. rewrite fold_left_app. cbn [fold_left]. destruct (fold_left istep os _) as [h s]. cbn zeta in *. cbn [fst snd] in IH. destruct IH as (A & B & C).
  destruct o as [p|p|p i|]; cbn [istep fst snd]; (split; [|split]); intros j; rewrite ?holder_last, ?index_last; auto.
  - assert (E : byId (iset h (tId (h p)) p s) = put (tId (h p)) p (byId s)) by (unfold iset; destruct (0 <? tIdx (h p)); reflexivity).
    rewrite E, get_put, A, C. reflexivity.
  - unfold idel. rewrite A. destruct (get (f p) (byId s)) eqn:E; cbn [byId].
    + rewrite get_remove, C. reflexivity.
    + destruct (Z.eqb_spec (f p) j) as [<- | N]; [exact E | apply C].
  - rewrite assign_id. apply A.
  - unfold assign, store. rewrite Nat.eqb_sym. destruct (Nat.eqb p j); [reflexivity | apply B].
  - unfold iall. cbn [fst]. rewrite repair_byId. apply C.
Qed.

Lemma orderly_front : forall f os o, orderly f (os ++ [o]) -> orderly f os.
Proof. intros f os o H a x b ->. apply (H a x (b ++ [o])). rewrite <- app_assoc. reflexivity. Qed.

Lemma run_inv : forall f os, orderly f os -> let x := irun (fun p => Tk (f p) 0, newImap) os in own (fst x) /\ inv (fst x) (snd x).
Proof.
  intros f os. induction os as [|o os IH] using rev_ind; intros R.
  - cbn. split; [intros p q _ H; cbn in H; lia|]. split; [|split; [|split]]; cbn; try contradiction; [intros k p H; discriminate | constructor].
  - specialize (IH (orderly_front _ _ _ R)). pose proof (R os o [] eq_refl) as U. pose proof (run_holder f os) as H.
    unfold irun in *. rewrite fold_left_app. cbn [fold_left]. destruct (fold_left istep os _) as [h s]. cbn zeta in *. cbn [fst snd] in *.
    destruct IH as [O V]. destruct H as (A & B & C).
    destruct o as [p|p|p i|]; cbn [istep fst snd].
    + split; [exact O|]. apply inv_set; [exact O | exact V|]. intros q Q. apply U. rewrite A, C in Q. exact Q.
    + split; [exact O|]. apply inv_del; [exact O | exact V|]. intros q Q. apply U. rewrite A, C in Q. exact Q.
    + destruct U as (Z & I & N). split.
      * intros a b. unfold assign, store. destruct (Nat.eqb_spec a p) as [-> | X], (Nat.eqb_spec b p) as [-> | Y]; cbn; intros E L; auto.
        -- exfalso. apply (N b). rewrite <- B. congruence.
        -- exfalso. apply (N a). rewrite <- B. exact E.
      * apply inv_assign; [exact V | rewrite B; exact Z | exact I].
    + split; [exact O|]. apply (inv_repair _ _ O V).
Qed.
