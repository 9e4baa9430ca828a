(** The tree through its API. *)
From Coq Require Import List ZArith Lia Bool Sorting.Sorted.
From Verif Require Import Base Art_Model Art_Node Art_Node2 Art_Tree Art_Tree2 Art_Tree3 Art_Search Art_Iter Art_Spec.
Import ListNotations.
Open Scope Z_scope.

(** ** The order of the specification is the order of the model *)
Lemma ltb_bcmp : forall a b, ltb a b = match bcmp a b with Lt => true | _ => false end.
Proof.
  induction a as [|x a IH]; intros [|y b]; try reflexivity. cbn. rewrite IH.
  destruct (Z.compare_spec x y) as [->|L|G].
  - now rewrite Z.ltb_irrefl, Z.eqb_refl.
  - now rewrite (proj2 (Z.ltb_lt x y) L).
  - rewrite (proj2 (Z.ltb_ge x y)), (proj2 (Z.eqb_neq x y)) by lia. reflexivity.
Qed.
Lemma sameb_bcmp : forall a b, sameb a b = beqb a b.
Proof.
  intros a b. unfold sameb. destruct (list_eq_dec Z.eq_dec a b) as [->|N]; symmetry; [now apply beqb_true|now apply beqb_false].
Qed.

Lemma put_lput : forall n k v ls, put k v (map asEntry ls) = map asEntry (lput (mkLeaf n k v) ls).
Proof.
  intros n k v. induction ls as [|l ls IH]; [reflexivity|]. cbn [map put lput asEntry lKey lVal]. unfold asEntry at 1. rewrite ltb_bcmp, sameb_bcmp. unfold beqb.
  destruct (bcmp k (lKey l)); cbn [map]; [reflexivity|reflexivity|now rewrite <- IH].
Qed.
Lemma drop_ldel : forall k ls, drop k (map asEntry ls) = map asEntry (ldel k ls).
Proof.
  intros k. induction ls as [|l ls IH]; [reflexivity|]. cbn [map drop ldel filter asEntry fst]. rewrite sameb_bcmp.
  destruct (beqb k (lKey l)); cbn [negb map]; [exact IH|]. f_equal. exact IH.
Qed.
Lemma held_lhas : forall k ls, held k (map asEntry ls) = lhas k ls.
Proof. intros k. induction ls as [|l ls IH]; [reflexivity|]. cbn. rewrite sameb_bcmp. f_equal. exact IH. Qed.
Lemma exact_lget : forall k ls, sfirst (fun k' => sameb k' k) (map asEntry ls) = seen (lget k ls).
Proof.
  intros k. induction ls as [|l ls IH]; [reflexivity|]. cbn [map sfirst lget asEntry fst]. rewrite sameb_bcmp, IH.
  replace (beqb (lKey l) k) with (beqb k (lKey l)).
  - destruct (beqb k (lKey l)); [reflexivity|]. destruct (lget k ls) as [[x i]|]; reflexivity.
  - unfold beqb. rewrite (bcmp_sym k (lKey l)). now destruct (bcmp k (lKey l)).
Qed.

Lemma sfirst_at : forall p l1 l r, Forall (fun x => p (lKey x) = false) l1 -> p (lKey l) = true ->
  sfirst p (map asEntry (l1 ++ l :: r)) = Some (asEntry l, length l1).
Proof.
  intros p. induction l1 as [|x l1 IH]; intros l r F H; cbn [app map sfirst asEntry fst length]; [now rewrite H|].
  apply Forall_cons_iff in F as (Hx & F). rewrite Hx, IH; auto.
Qed.
Lemma sfirst_none : forall p ls, Forall (fun x => p (lKey x) = false) ls -> sfirst p (map asEntry ls) = None.
Proof. intros p. induction 1 as [|x ls H F IH]; [reflexivity|]. cbn [map sfirst asEntry fst]. now rewrite H, IH. Qed.
Lemma slast_none : forall p ls, Forall (fun x => p (lKey x) = false) ls -> slast p (map asEntry ls) = None.
Proof. intros p. induction 1 as [|x ls H F IH]; [reflexivity|]. cbn [map slast asEntry fst]. now rewrite IH, H. Qed.
Lemma slast_at : forall p l1 l r, Forall (fun x => p (lKey x) = false) r -> p (lKey l) = true ->
  slast p (map asEntry (l1 ++ l :: r)) = Some (asEntry l, length l1).
Proof.
  intros p. induction l1 as [|x l1 IH]; intros l r F H; cbn [app map slast asEntry fst length].
  - change (lKey l, lVal l) with (asEntry l). rewrite slast_none by exact F. now rewrite H.
  - now rewrite IH.
Qed.

Lemma wanted_first : forall s q ls, StronglySorted klt ls -> forall l1 l r, s = GTE \/ s = GT -> ls = l1 ++ l :: r ->
  Forall (fun x => under (match s with GT => true | _ => false end) q x = true) l1 -> under (match s with GT => true | _ => false end) q l = false ->
  wanted s q (map asEntry ls) = Some (asEntry l, length l1).
Proof.
  intros s q ls _ l1 l r D -> F H. destruct D as [-> | ->]; cbn [wanted]; apply sfirst_at.
  - eapply Forall_impl; [|exact F]. cbn. unfold under. intros x Hx. rewrite ltb_bcmp. destruct (bcmp (lKey x) q); easy.
  - unfold under in H. rewrite ltb_bcmp. destruct (bcmp (lKey l) q); easy.
  - eapply Forall_impl; [|exact F]. cbn. unfold under. intros x Hx. rewrite ltb_bcmp, bcmp_sym. destruct (bcmp (lKey x) q); easy.
  - unfold under in H. rewrite ltb_bcmp, bcmp_sym. destruct (bcmp (lKey l) q); easy.
Qed.
Lemma wanted_nofirst : forall s q ls, s = GTE \/ s = GT ->
  Forall (fun x => under (match s with GT => true | _ => false end) q x = true) ls -> wanted s q (map asEntry ls) = None.
Proof.
  intros s q ls D F. destruct D as [-> | ->]; cbn [wanted]; apply sfirst_none; (eapply Forall_impl; [|exact F]); cbn; unfold under; intros x Hx; rewrite ltb_bcmp.
  - destruct (bcmp (lKey x) q); easy.
  - rewrite bcmp_sym. destruct (bcmp (lKey x) q); easy.
Qed.
Lemma wanted_last : forall s q l1 l r, s = LTE \/ s = LT ->
  Forall (fun x => over (match s with LT => true | _ => false end) q x = true) r -> over (match s with LT => true | _ => false end) q l = false ->
  wanted s q (map asEntry (l1 ++ l :: r)) = Some (asEntry l, length l1).
Proof.
  intros s q l1 l r D F H. destruct D as [-> | ->]; cbn [wanted]; apply slast_at.
  - eapply Forall_impl; [|exact F]. cbn. unfold over. intros x Hx. rewrite ltb_bcmp, bcmp_sym. destruct (bcmp (lKey x) q); easy.
  - unfold over in H. rewrite ltb_bcmp, bcmp_sym. destruct (bcmp (lKey l) q); easy.
  - eapply Forall_impl; [|exact F]. cbn. unfold over. intros x Hx. rewrite ltb_bcmp. destruct (bcmp (lKey x) q); easy.
  - unfold over in H. rewrite ltb_bcmp. destruct (bcmp (lKey l) q); easy.
Qed.
Lemma wanted_nolast : forall s q ls, s = LTE \/ s = LT ->
  Forall (fun x => over (match s with LT => true | _ => false end) q x = true) ls -> wanted s q (map asEntry ls) = None.
Proof.
  intros s q ls D F. destruct D as [-> | ->]; cbn [wanted]; apply slast_none; (eapply Forall_impl; [|exact F]); cbn; unfold over; intros x Hx; rewrite ltb_bcmp.
  - rewrite bcmp_sym. destruct (bcmp (lKey x) q); easy.
  - destruct (bcmp (lKey x) q); easy.
Qed.

(** ** The invariant *)
Definition Shape (t : tree) (ls : list leaf) : Prop :=
  (match root t with None => ls = [] | Some b => Wf [] b ls end) /\ size t = Z.of_nat (length ls).

Lemma shape_sorted : forall t ls, Shape t ls -> StronglySorted klt ls.
Proof. intros t ls (H & _). destruct (root t); [eapply Wf_sorted; eauto|subst; constructor]. Qed.

Lemma inner_two : forall p pren comp ok sub nd ls, Wf p (BInner pren comp ok sub nd) ls -> (2 <= length ls)%nat.
Proof.
  intros p pren comp ok sub nd ls W. inversion W as [|? ? ? ? ? ? es lss ? E Lo WK El Es Pr]; subst.
  pose proof (concat_length_ge _ (proj2 Wf_nonempty _ _ _ WK)) as G. rewrite <- (WfK_length _ _ _ WK) in G. apply two_kids in Lo. lia.
Qed.

(** Searching for the empty key. *)
Definition emptyFinds (s : smod) (m : list entry) : option (entry * nat) :=
  match s with GTE | GT => sfirst (fun _ => true) m | LTE | LT => slast (fun _ => true) m | Exact => wanted Exact [] m end.

Lemma find_empty : forall s t ls, Shape t ls -> (s = Exact -> length ls <> 1%nat) ->
  exists a, find s [] t = Ok a /\ seen a = emptyFinds s (map asEntry ls).
Proof.
  intros s t ls (R & Sz) Ex. unfold find. destruct (root t) as [b|]; [|subst ls; exists None; now destruct s].
  cbn [andb]. destruct (Z.eqb_spec (size t) 1) as [S1|S1].
  - destruct b as [pr l|]; [|apply inner_two in R; lia]. inversion R; subst. exists (Some (l, 0%nat)). split; [reflexivity|].
    destruct s; try reflexivity. exfalso. now apply Ex.
  - destruct b as [pr l|pr comp ok sub nd]; [inversion R; subst; cbn in Sz; lia|].
    pose proof (Wf_ne _ _ _ R) as Ne.
    assert (FS := first_spec _ _ _ R). assert (LS := last_spec _ _ _ R).
    assert (F : forall st, getGTE st [] 0 true false 0 (BInner pr comp ok sub nd) = Ok (hd_error ls, true, 0, 0%nat)) by (intros st; cbn [getGTE]; now rewrite FS).
    assert (L : forall st, getLTE st [] 0 true false 0 (BInner pr comp ok sub nd) = Ok (lastLeaf ls, true, 0, (length ls - 1)%nat)).
    { intros st. cbn [getLTE]. rewrite LS. inversion R; subst. reflexivity. }
    assert (F' : seen (answer (hd_error ls, true, 0, 0%nat)) = sfirst (fun _ => true) (map asEntry ls)) by (destruct ls; [easy|reflexivity]).
    assert (L' : seen (answer (lastLeaf ls, true, 0, (length ls - 1)%nat)) = slast (fun _ => true) (map asEntry ls)).
    { unfold lastLeaf. destruct ls as [|x ls' _] using rev_ind; [easy|]. rewrite slast_at; auto. rewrite rev_app_distr, app_length. cbn. now replace (length ls' + 1 - 1)%nat with (length ls') by lia. }
    destruct s.
    + exists (lget [] ls). split; [|cbn [emptyFinds wanted]; now rewrite exact_lget]. now apply (get_spec [] (Forall_nil _) [] _ ls).
    + exists (answer (hd_error ls, true, 0, 0%nat)). split; [now rewrite F|exact F'].
    + exists (answer (lastLeaf ls, true, 0, (length ls - 1)%nat)). split; [now rewrite L|exact L'].
    + exists (answer (hd_error ls, true, 0, 0%nat)). split; [now rewrite F|exact F'].
    + exists (answer (lastLeaf ls, true, 0, (length ls - 1)%nat)). split; [now rewrite L|exact L'].
Qed.

Lemma agree_nil : forall q, Agree q [].
Proof. intros q. left. now exists q. Qed.

Lemma below_root : forall q pr comp ok sub nd ls, Bytes q -> Wf [] (BInner pr comp ok sub nd) ls -> checkCompressed comp q 0 = Some false -> belowAll q (map asEntry ls).
Proof.
  intros q pr comp ok sub nd ls Bq W Ck. split; [rewrite map_length; eapply inner_two; eauto|].
  unfold checkCompressed in Ck. cbn [skipn] in Ck. apply mismatch_Some in Ck as (f & c & k & s1 & s2 & Ec & Eq & Lt & N).
  exists f, c, k, s2. split; [exact Eq|]. split; [symmetry in Lt; apply Z.ltb_ge in Lt; lia|].
  intros e He. apply in_map_iff in He as (l & <- & Hl). cbn [fst asEntry].
  inversion W as [|? ? ? ? ? ? es lss ? E Lo WK El Es Pr]; subst.
  destruct (WfK_path _ _ _ WK _ Hl) as (e & He & P & B). apply prefix_app in P. cbn [app] in P. destruct P as (r & P). rewrite <- app_assoc in P.
  change ((c :: s1) ++ r) with (c :: s1 ++ r) in P. apply term_split in P as [(_ & X & _)|(r' & _ & ->)].
  - exfalso. unfold Bytes in Bq. rewrite Forall_app in Bq. destruct Bq as (_ & Bq). inversion Bq; subst. symmetry in Lt. apply Z.ltb_ge in Lt. lia.
  - now exists r'.
Qed.

Lemma find_ordered : forall s q t ls, Shape t ls -> Bytes q -> q <> [] -> s <> Exact ->
  (s = GTE \/ s = GT -> ~ belowAll q (map asEntry ls)) -> (s = GT \/ s = LT -> forall l, ls = [l] -> lKey l <> q) ->
  exists a, find s q t = Ok a /\ seen a = wanted s q (map asEntry ls).
Proof.
  intros s q t ls (R & Sz) Bq Nq Ns Gd G1. unfold find. destruct (root t) as [b|]; [|subst ls; exists None; now destruct s].
  replace (match q with [] => true | _ => false end) with false by now destruct q. cbn [andb].
  destruct (Z.eqb_spec (size t) 1) as [S1|S1].
  - destruct b as [pr l|]; [|apply inner_two in R; lia]. inversion R; subst. cbn [getGTE getLTE bind]. rewrite leafGet_cases.
    specialize (fun H => G1 H l eq_refl).
    destruct s; try easy; eexists; (split; [reflexivity|]); destruct (bcmp q (lKey l)) eqn:K;
      cbn [single answer orb Z.leb Z.ltb Z.compare seen option_map fst snd wanted map sfirst slast asEntry]; rewrite ltb_bcmp, ?(bcmp_sym q (lKey l)), ?K; try reflexivity;
      apply bcmp_eq in K; exfalso; apply G1; auto.
  - destruct b as [pr l|pr comp ok sub nd]; [inversion R; subst; cbn in Sz; lia|].
    assert (X : forall s, s = GTE \/ s = GT -> ~ belowAll q (map asEntry ls) ->
      exists a, (do r <- getGTE (match s with GT => true | _ => false end) q 0 true false 0 (BInner pr comp ok sub nd) ; Ok (answer r)) = Ok a /\ seen a = wanted s q (map asEntry ls)).
    { clear s Ns Gd G1. intros s D Gd.
      destruct (gte_main (match s with GT => true | _ => false end) q Bq Nq [] _ ls R (agree_nil q) true) as ([[[v f] d] id] & Eg & P & Z0). cbn [length] in Eg. rewrite Eg. cbn [bind].
      eexists. split; [reflexivity|]. unfold Gpost in P. destruct f.
      - destruct P as [(l1 & l & r & -> & -> & -> & F & U)|(_ & pr' & l' & E & _)]; [|discriminate].
        rewrite (wanted_first s q _ (Wf_sorted _ _ _ R) l1 l r); auto.
      - rewrite wanted_nofirst; [now destruct v|exact D|]. destruct P as [(_ & P)|(Ng & _)]; [exact P|].
        exfalso. specialize (Z0 eq_refl). cbn in Z0. assert (0 < d); [|lia]. apply Z0; [|reflexivity]. intros Ck. apply Gd. eapply below_root; eauto. }
    assert (Y : forall s, s = LTE \/ s = LT ->
      exists a, (do r <- getLTE (match s with LT => true | _ => false end) q 0 true false 0 (BInner pr comp ok sub nd) ; Ok (answer r)) = Ok a /\ seen a = wanted s q (map asEntry ls)).
    { clear s Ns Gd G1. intros s D.
      destruct (lte_main (match s with LT => true | _ => false end) q Bq Nq [] _ ls R (agree_nil q) true) as ([[[v f] d] id] & Eg & P & Z0). cbn [length] in Eg. rewrite Eg. cbn [bind].
      eexists. split; [reflexivity|]. unfold Lpost in P. destruct f.
      - destruct P as [(l1 & l & r & -> & -> & -> & F & U)|(_ & pr' & l' & E & _)]; [|discriminate].
        rewrite (wanted_last s q l1 l r); auto.
      - rewrite wanted_nolast; [now destruct v|exact D|]. destruct P as [(_ & P)|(Ng & _)]; [exact P|].
        exfalso. specialize (Z0 eq_refl I eq_refl). lia. }
    destruct s; try easy.
    + apply (X GTE); auto.
    + apply (Y LTE); auto.
    + apply (X GT); auto.
    + apply (Y LT); auto.
Qed.

Lemma find_exact : forall q t ls, Shape t ls -> Bytes q -> (q = [] -> length ls <> 1%nat) ->
  exists a, find Exact q t = Ok a /\ seen a = wanted Exact q (map asEntry ls).
Proof.
  intros q t ls Sh Bq G. destruct q as [|x q]; [apply (find_empty Exact); auto|]. destruct Sh as (R & Sz). unfold find.
  destruct (root t) as [b|]; [|subst; exists None; auto]. cbn [andb].
  exists (lget (x :: q) ls). split; [now apply (get_spec (x :: q) Bq [] _ ls)|]. cbn [wanted]. now rewrite exact_lget.
Qed.

(** ** Iterating over a range *)
Definition showAt (x : leaf * Z) : entry * Z := (asEntry (fst x), snd x).

Lemma sorted_rev : forall {A} (R : A -> A -> Prop) l, StronglySorted R l -> StronglySorted (fun x y => R y x) (rev l).
Proof.
  intros A R l. induction 1 as [|x l S IH F]; cbn; [constructor|].
  assert (X : forall l', StronglySorted (fun x y => R y x) l' -> Forall (R x) l' -> StronglySorted (fun x y => R y x) (l' ++ [x])).
  { induction 1 as [|y l' S' IH' F']; intros G; cbn; [repeat constructor|]. apply Forall_cons_iff in G as (Gy & G). constructor; [now apply IH'|].
    apply Forall_app. split; [exact F'|repeat constructor; exact Gy]. }
  apply X; [exact IH|]. apply Forall_forall. intros y Hy. rewrite Forall_forall in F. apply F. now apply in_rev.
Qed.
Lemma sorted_turn : forall rv ls, StronglySorted klt ls -> StronglySorted (along rv) (turn rv ls).
Proof. intros [] ls S; cbn; [now apply (sorted_rev klt)|exact S]. Qed.

Lemma split_mono : forall {A} (R : A -> A -> Prop) (P : A -> bool) l, (forall x y, R x y -> P x = true -> P y = true) -> StronglySorted R l ->
  exists a b, l = a ++ b /\ Forall (fun x => P x = false) a /\ Forall (fun x => P x = true) b.
Proof.
  intros A R P l M. induction 1 as [|x l S IH F]; [now exists [], []|]. destruct (P x) eqn:Px.
  - exists [], (x :: l). split; [reflexivity|]. split; [constructor|]. constructor; [exact Px|]. apply Forall_forall. intros y Hy. rewrite Forall_forall in F. eauto.
  - destruct IH as (a & b & -> & Fa & Fb). exists (x :: a), b. split; [reflexivity|]. split; [now constructor|exact Fb].
Qed.

Definition move (rv : bool) (from : Z) (n : nat) : Z := if rv then from - Z.of_nat n else from + Z.of_nat n.
Lemma count_app : forall rv a b from, count rv from (a + b) = count rv from a ++ count rv (move rv from a) b.
Proof.
  intros rv. induction a as [|a IH]; intros b from; cbn [count Nat.add app].
  - unfold move. destruct rv; cbn [Z.of_nat]; now rewrite ?Z.sub_0_r, ?Z.add_0_r.
  - f_equal. rewrite IH. f_equal. f_equal. unfold move. destruct rv; lia.
Qed.
Lemma count_length : forall rv n from, length (count rv from n) = n.
Proof. intros rv. induction n; intros; cbn; auto. Qed.
Lemma count_seq : forall n s, count false (Z.of_nat s) n = map Z.of_nat (seq s n).
Proof. induction n as [|n IH]; intros s; cbn; [reflexivity|]. f_equal. rewrite <- IH. f_equal. lia. Qed.
Lemma combine_app : forall {A B} (a1 : list A) (b1 : list B) a2 b2, length a1 = length b1 -> combine (a1 ++ a2) (b1 ++ b2) = combine a1 b1 ++ combine a2 b2.
Proof. induction a1 as [|x a1 IH]; intros [|y b1] a2 b2 L; cbn in *; try easy. f_equal. apply IH. lia. Qed.
Lemma combine_rev : forall {A} (ls : list A) n from, n = length ls -> rev (combine ls (count false from n)) = combine (rev ls) (count true (from + Z.of_nat n - 1) n).
Proof.
  intros A ls n. revert ls. induction n as [|n IH]; intros ls from L.
  - destruct ls; [reflexivity|discriminate].
  - destruct ls as [|x ls]; [discriminate|]. cbn in L.
    assert (E : count true (from + Z.of_nat (S n) - 1) (S n) = count true (from + 1 + Z.of_nat n - 1) n ++ [from]).
    { replace (S n) with (n + 1)%nat by lia. rewrite count_app. f_equal; [f_equal; lia|]. cbn [count move]. f_equal. lia. }
    rewrite E. cbn [count combine rev]. rewrite IH by lia. rewrite combine_app by (rewrite rev_length, count_length; lia). reflexivity.
Qed.
Lemma filter_none : forall {A} (f : A -> bool) l, Forall (fun x => f x = false) l -> filter f l = [].
Proof. intros A f l. induction 1 as [|x l H F IH]; cbn; [reflexivity|]. now rewrite H. Qed.
Lemma filter_every : forall {A} (f : A -> bool) l, Forall (fun x => f x = true) l -> filter f l = l.
Proof. intros A f l. induction 1 as [|x l H F IH]; cbn; [reflexivity|]. now rewrite H, IH. Qed.
Lemma filter_back : forall {A} (f : A -> bool) l, rev (filter f l) = filter f (rev l).
Proof. intros A f. induction l as [|x l IH]; cbn; [reflexivity|]. rewrite filter_app, <- IH. cbn. destruct (f x); cbn; [reflexivity|now rewrite app_nil_r]. Qed.

Lemma filter_mid : forall f (a mid c : list leaf) rv from,
  Forall (fun x => f x = false) a -> Forall (fun x => f x = true) mid -> Forall (fun x => f x = false) c ->
  filter (fun e => f (fst e)) (combine (a ++ mid ++ c) (count rv from (length (a ++ mid ++ c)))) = combine mid (count rv (move rv from (length a)) (length mid)).
Proof.
  intros f a mid c rv from Fa Fm Fc. rewrite app_length, count_app, combine_app by now rewrite count_length.
  rewrite app_length, count_app, combine_app by now rewrite count_length. rewrite !filter_app.
  assert (L : forall l n b, Forall (fun x => f x = b) l -> Forall (fun e : leaf * Z => f (fst e) = b) (combine l n)).
  { intros l n b F. apply Forall_forall. intros (x, i) Hi. apply in_combine_l in Hi. rewrite Forall_forall in F. now apply F. }
  rewrite (filter_none _ (combine a _)) by now apply L. rewrite (filter_every _ (combine mid _)) by now apply L. rewrite (filter_none _ (combine c _)) by now apply L.
  now rewrite app_nil_r.
Qed.

(** Everything between the bounds is consecutive. *)
Definition startOk (it : iterator) (k : bytes) : bool :=
  if itReverse it then sameb (itCursor it) [] || negb (ltb (itCursor it) k) else negb (ltb k (itCursor it)).
Definition endOk (it : iterator) (k : bytes) : bool :=
  sameb (itTerminate it) [] || (if itReverse it then ltb (itTerminate it) k else ltb k (itTerminate it)).

Lemma same_nil : forall z, sameb z [] = match z with [] => true | _ => false end.
Proof. intros [|x z]; rewrite sameb_bcmp; reflexivity. Qed.
Lemma inRange_ok : forall it k, inRange it k = startOk it k && endOk it k.
Proof.
  intros it k. unfold inRange, startOk, endOk. rewrite !same_nil. destruct (itReverse it); rewrite !ltb_bcmp.
  - rewrite (bcmp_sym k (itCursor it)), (bcmp_sym k (itTerminate it)). rewrite orb_comm. f_equal; f_equal; [destruct (bcmp k (itCursor it)); reflexivity|destruct (bcmp k (itTerminate it)); reflexivity].
  - f_equal. now destruct (bcmp k (itCursor it)).
Qed.

Lemma ltb_trans : forall a b c, ltb a b = true -> ltb b c = true -> ltb a c = true.
Proof.
  intros a b c. rewrite !ltb_bcmp. destruct (bcmp a b) eqn:A; try discriminate. destruct (bcmp b c) eqn:B; try discriminate. intros _ _. now rewrite (bcmp_trans _ _ _ A B).
Qed.
Lemma ltb_le_trans : forall a b c, ltb a b = true -> ltb c b = false -> ltb a c = true.
Proof.
  intros a b c. rewrite !ltb_bcmp. destruct (bcmp a b) eqn:A; try discriminate. rewrite (bcmp_sym b c). destruct (bcmp b c) eqn:B; try discriminate; intros _ _.
  - apply bcmp_eq in B. subst. now rewrite A.
  - now rewrite (bcmp_trans _ _ _ A B).
Qed.
Lemma le_lt_trans : forall a b c, ltb b a = false -> ltb b c = true -> ltb a c = true.
Proof.
  intros a b c. rewrite !ltb_bcmp. rewrite (bcmp_sym a b). destruct (bcmp b c) eqn:B; try discriminate. destruct (bcmp a b) eqn:A; try discriminate; intros _ _.
  - apply bcmp_eq in A. subst. now rewrite B.
  - now rewrite (bcmp_trans _ _ _ A B).
Qed.
Lemma ltb_asym : forall a b, ltb a b = true -> ltb b a = false.
Proof. intros a b. rewrite !ltb_bcmp, (bcmp_sym a b). destruct (bcmp a b); easy. Qed.
Lemma klt_ltb : forall x y, klt x y -> ltb (lKey x) (lKey y) = true.
Proof. intros x y H. rewrite ltb_bcmp. unfold klt in H. now rewrite H. Qed.

Lemma start_up : forall it x y, along (itReverse it) x y -> startOk it (lKey x) = true -> startOk it (lKey y) = true.
Proof.
  intros it x y A H. unfold startOk in *. destruct (itReverse it); cbn in A; apply klt_ltb in A.
  - apply orb_true_iff in H as [-> | H]; [reflexivity|]. apply orb_true_iff. right. apply negb_true_iff in H. apply negb_true_iff.
    destruct (ltb (itCursor it) (lKey y)) eqn:C; [|reflexivity]. rewrite (ltb_trans _ _ _ C A) in H. discriminate.
  - apply negb_true_iff in H. apply negb_true_iff. destruct (ltb (lKey y) (itCursor it)) eqn:C; [|reflexivity]. now rewrite (ltb_trans _ _ _ A C) in H.
Qed.
Lemma end_down : forall it x y, along (itReverse it) x y -> negb (endOk it (lKey x)) = true -> negb (endOk it (lKey y)) = true.
Proof.
  intros it x y A H. apply negb_true_iff in H. apply negb_true_iff. unfold endOk in *. apply orb_false_iff in H as (-> & H). cbn [orb].
  destruct (itReverse it); cbn in A; apply klt_ltb in A.
  - destruct (ltb (itTerminate it) (lKey y)) eqn:C; [|reflexivity]. now rewrite (ltb_trans _ _ _ C A) in H.
  - destruct (ltb (lKey y) (itTerminate it)) eqn:C; [|reflexivity]. now rewrite (ltb_trans _ _ _ A C) in H.
Qed.

Lemma sorted_part : forall {A} (R : A -> A -> Prop) a b, StronglySorted R (a ++ b) -> StronglySorted R b.
Proof. intros A R. induction a as [|x a IH]; intros b H; [exact H|]. apply IH. now inversion H. Qed.

Lemma range_split : forall it l, StronglySorted (along (itReverse it)) l -> exists a mid c, l = a ++ mid ++ c /\
  Forall (fun x => startOk it (lKey x) = false) a /\ Forall (fun x => startOk it (lKey x) = true) (mid ++ c) /\
  Forall (fun x => inRange it (lKey x) = false) a /\ Forall (fun x => inRange it (lKey x) = true) mid /\ Forall (fun x => inRange it (lKey x) = false) c.
Proof.
  intros it l S. destruct (split_mono _ (fun x => startOk it (lKey x)) l (start_up it) S) as (a & b & -> & Fa & Fb).
  destruct (split_mono _ (fun x => negb (endOk it (lKey x))) b (end_down it) (sorted_part _ _ _ S)) as (mid & c & -> & Fm & Fc).
  exists a, mid, c. split; [reflexivity|]. split; [exact Fa|]. split; [exact Fb|]. apply Forall_app in Fb as (Fb1 & Fb2).
  split; [eapply Forall_impl; [|exact Fa]; cbn; intros x H; now rewrite inRange_ok, H|]. rewrite Forall_forall in Fm, Fc, Fb1, Fb2. split; apply Forall_forall; intros x Hx; rewrite inRange_ok.
  - rewrite (Fb1 _ Hx). now apply negb_false_iff, Fm.
  - apply andb_false_iff. right. now apply negb_true_iff, Fc.
Qed.

Lemma ranged_out : forall it ls beg, StronglySorted klt ls -> bump it = beg ->
  let l := turn (itReverse it) ls in
  let from := if itReverse it then Z.of_nat (length ls) - 1 else 0 in
  (forall a x b, l = a ++ x :: b -> Forall (fun y => startOk it (lKey y) = false) a -> startOk it (lKey x) = true -> beg = move (itReverse it) from (length a)) ->
  map showAt (combine (filter (fun l => inRange it (lKey l)) l) (count (itReverse it) (bump it) (length (filter (fun l => inRange it (lKey l)) l)))) =
  map showAt (filter (fun e => inRange it (lKey (fst e))) (combine l (count (itReverse it) from (length l)))).
Proof.
  intros it ls beg S Eb l from Hb. subst l from. pose proof (sorted_turn (itReverse it) _ S) as S'. remember (turn (itReverse it) ls) as l eqn:El.
  destruct (range_split it l S') as (a & mid & c & -> & Fa & Fb & Ia & Im & Ic).
  rewrite filter_mid with (f := fun x => inRange it (lKey x)) by assumption.
  rewrite !filter_app, (filter_none _ a), (filter_every _ mid), (filter_none _ c) by assumption. cbn [app]. rewrite app_nil_r.
  destruct mid as [|x mid]; [reflexivity|]. f_equal. f_equal. f_equal. rewrite Eb.
  apply (Hb a x (mid ++ c)); [reflexivity|exact Fa|]. now inversion Fb.
Qed.

Lemma map_combine_l : forall (ls : list leaf) (n : list Z), combine (map asEntry ls) n = map showAt (combine ls n).
Proof. induction ls as [|x ls IH]; intros [|i n]; cbn; try reflexivity. f_equal. apply IH. Qed.
Lemma filter_map : forall {A B} (g : A -> B) (f : B -> bool) l, filter f (map g l) = map g (filter (fun x => f (g x)) l).
Proof. intros A B g f. induction l as [|x l IH]; cbn; [reflexivity|]. destruct (f (g x)); cbn; now rewrite IH. Qed.

Lemma place_leaves : forall ls, place (map asEntry ls) = map showAt (combine ls (count false 0 (length ls))).
Proof. intros ls. unfold place. rewrite map_length, map_combine_l. f_equal. f_equal. now rewrite <- (count_seq (length ls) 0). Qed.

Lemma up_leaves : forall it ls, itReverse it = false ->
  upRange (itCursor it) (itTerminate it) (map asEntry ls) = map showAt (filter (fun e => inRange it (lKey (fst e))) (combine ls (count false 0 (length ls)))).
Proof.
  intros it ls E. unfold upRange. rewrite place_leaves, filter_map. f_equal. apply filter_ext. intros (l, i). cbn. rewrite inRange_ok. unfold startOk, endOk. now rewrite E.
Qed.
Lemma down_leaves : forall it ls, itReverse it = true ->
  downRange (itTerminate it) (itCursor it) (map asEntry ls) = map showAt (filter (fun e => inRange it (lKey (fst e))) (combine (rev ls) (count true (Z.of_nat (length ls) - 1) (length ls)))).
Proof.
  intros it ls E. unfold downRange. rewrite place_leaves, filter_map, <- map_rev. f_equal. rewrite filter_back, combine_rev by reflexivity. cbn [Z.add].
  apply filter_ext. intros (l, i). cbn. rewrite inRange_ok. unfold startOk, endOk. now rewrite E.
Qed.

(** *** The two searches that set up an iterator *)
Lemma find_from : forall s q t ls, Shape t ls -> Bytes q -> s = GTE \/ s = LTE -> (s = GTE -> ~ belowAll q (map asEntry ls)) ->
  exists a, find s q t = Ok a /\ seen a = if sameb q [] then emptyFinds s (map asEntry ls) else wanted s q (map asEntry ls).
Proof.
  intros s q t ls Sh Bq D G. rewrite same_nil. destruct q as [|x q].
  - apply find_empty; auto. intros ->. now destruct D.
  - apply find_ordered; auto; try easy; destruct D; subst; try easy; auto; intros [H|H]; try discriminate H.
Qed.

Lemma find_towards : forall s q t ls, Shape t ls -> Bytes q -> s = GT \/ s = LT -> (s = GT -> ~ belowAll q (map asEntry ls)) ->
  exists a, find s q t = Ok a /\ (a = None -> ls = [] \/ (q <> [] /\ wanted s q (map asEntry ls) = None)).
Proof.
  intros s q t ls Sh Bq D G. destruct q as [|x q].
  - destruct (find_empty s t ls Sh) as (a & E & Sa); [intros ->; now destruct D|]. exists a. split; [exact E|]. intros ->. left.
    destruct ls as [|l ls]; [reflexivity|]. exfalso. destruct D as [-> | ->]; cbn in Sa; [discriminate|]. destruct (slast _ _) as [[? ?]|]; discriminate.
  - destruct (list_eq_dec (list_eq_dec Z.eq_dec) (map lKey ls) [x :: q]) as [E1|N1].
    + destruct ls as [|l [|l2 ls]]; try discriminate. cbn in E1. injection E1 as E1. destruct Sh as (R & Sz). unfold find. destruct (root t) as [b|]; [|discriminate].
      cbn [andb]. cbn in Sz. rewrite Sz. cbn [Z.eqb Pos.eqb]. inversion R as [? ? ? P B|? ? ? ? ? ? es lss ? E Lo WK El Es Pr]; subst.
      * exists (Some (l, 0%nat)). split; [|discriminate]. destruct D as [-> | ->]; cbn [getGTE getLTE bind]; rewrite leafGet_cases, E1, bcmp_refl; reflexivity.
      * apply inner_two in R. cbn in R. lia.
    + destruct (find_ordered s (x :: q) t ls Sh Bq) as (a & E & Sa); try easy.
      * intros ->. now destruct D.
      * intros [-> | ->]; [now destruct D|auto].
      * intros _ l -> E2. apply N1. cbn. now rewrite E2.
      * exists a. split; [exact E|]. intros ->. right. split; [discriminate|]. now rewrite <- Sa.
Qed.

Lemma new_left : forall t b ls start endx rv i, root t = Some b -> Wf [] b ls -> Left t (mkIter (version t) [] false start endx rv i None) (turn rv ls).
Proof. intros. split; [reflexivity|]. split; [reflexivity|]. exists b, ls. split; [assumption|]. split; [assumption|]. left. split; reflexivity. Qed.

Lemma new_left_some : forall t b ls start endx rv i l, root t = Some b -> Wf [] b ls -> Left t (mkIter (version t) [] false start endx rv i (Some l)) (turn rv ls).
Proof. intros. split; [reflexivity|]. split; [reflexivity|]. exists b, ls. split; [assumption|]. split; [assumption|]. left. split; reflexivity. Qed.

Lemma sfirst_none_inv : forall p ls, sfirst p (map asEntry ls) = None -> Forall (fun l => p (lKey l) = false) ls.
Proof.
  intros p. induction ls as [|l ls IH]; intros H; constructor; cbn [map sfirst asEntry fst] in H; destruct (p (lKey l)); try discriminate; auto.
  apply IH. destruct (sfirst p (map asEntry ls)) as [[? ?]|]; [discriminate|reflexivity].
Qed.
Lemma slast_none_inv : forall p ls, slast p (map asEntry ls) = None -> Forall (fun l => p (lKey l) = false) ls.
Proof.
  intros p. induction ls as [|l ls IH]; intros H; constructor; cbn [map slast asEntry fst] in H; destruct (slast p (map asEntry ls)) as [[? ?]|] eqn:E; try discriminate.
  - destruct (p (lKey l)); [discriminate|reflexivity].
  - now apply IH.
Qed.

Lemma none_ranged : forall it (l : list leaf) (n : list Z), Forall (fun x => inRange it (lKey x) = false) l -> filter (fun e => inRange it (lKey (fst e))) (combine l n) = [].
Proof. intros it l n F. apply filter_none. apply Forall_forall. intros (x, i) Hi. apply in_combine_l in Hi. rewrite Forall_forall in F. now apply F. Qed.

Lemma sfirst_ext : forall p p' m, (forall k, p k = p' k) -> sfirst p m = sfirst p' m.
Proof. intros p p' m H. induction m as [|e m IH]; cbn; [reflexivity|]. now rewrite H, IH. Qed.
Lemma slast_ext : forall p p' m, (forall k, p k = p' k) -> slast p m = slast p' m.
Proof. intros p p' m H. induction m as [|e m IH]; cbn; [reflexivity|]. now rewrite H, IH. Qed.

Lemma iter_drains : forall t ls start endx, Shape t ls -> Bytes start -> Bytes endx -> ~ belowAll start (map asEntry ls) ->
  exists it out, iter start endx t = Ok it /\ Drains t it out /\ map showAt out = upRange start endx (map asEntry ls).
Proof.
  intros t ls start endx Sh Bs Be G. pose proof (shape_sorted _ _ Sh) as So. pose proof Sh as (R & Sz). unfold iter. destruct (root t) as [b|] eqn:Rt.
  2:{ subst ls. exists closedIter, []. split; [reflexivity|]. split; [now apply closed_ends|reflexivity]. }
  pose proof (Wf_ne _ _ _ R) as Ne. destruct (Z.ltb_spec (size t) 1) as [L|_]; [destruct ls; [easy|cbn in Sz; lia]|].
  set (it := fun beg : nat => mkIter (version t) [] false start endx false (Z.of_nat beg - 1) None).
  assert (UL : forall beg, upRange start endx (map asEntry ls) = map showAt (filter (fun e => inRange (it beg) (lKey (fst e))) (combine ls (count false 0 (length ls))))) by (intros beg; exact (up_leaves (it beg) ls eq_refl)).
  destruct (find_from GTE start t ls Sh Bs (or_introl eq_refl) (fun _ => G)) as (a & Ea & Sa).
  assert (Sa' : seen a = sfirst (fun k => negb (ltb k start)) (map asEntry ls)).
  { rewrite Sa, same_nil. destruct start; [|reflexivity]. cbn [emptyFinds]. apply sfirst_ext. now intros [|]. }
  clear Sa. unfold iter. rewrite Ea. cbn [bind]. destruct a as [[l beg]|].
  2:{ exists closedIter, []. split; [reflexivity|]. split; [now apply closed_ends|]. cbn in Sa'. symmetry in Sa'. apply sfirst_none_inv in Sa'.
      rewrite (UL 0%nat). rewrite none_ranged; [reflexivity|]. eapply Forall_impl; [|exact Sa']. cbn beta. intros x Hx. rewrite inRange_ok. unfold startOk. cbn [itReverse it itCursor]. now rewrite Hx. }
  destruct (find_towards LT endx t ls Sh Be (or_intror eq_refl) ltac:(discriminate)) as (z & Ez & Sz2). rewrite Ez. cbn [bind]. destruct z as [z|].
  - exists (it beg). eexists. split; [reflexivity|]. split.
    + apply (drains_left (length (turn false ls)) t (it beg) (turn false ls)); [lia|now apply (new_left t b)|exact So].
    + rewrite (UL beg).
      apply (ranged_out (it beg) ls (Z.of_nat beg) So); [cbn; lia|]. cbn [itReverse it turn]. intros a x c -> Fa Hx. cbn [move].
      rewrite sfirst_at in Sa'.
      * cbn in Sa'. injection Sa' as _ _ ->. lia.
      * eapply Forall_impl; [|exact Fa]. cbn. intros y Hy. unfold startOk in Hy. exact Hy.
      * exact Hx.
  - exists closedIter, []. split; [reflexivity|]. split; [now apply closed_ends|]. destruct (Sz2 eq_refl) as [-> | (Nz & Wz)]; [easy|]. cbn [wanted] in Wz. apply slast_none_inv in Wz.
    rewrite (UL 0%nat). rewrite none_ranged; [reflexivity|]. eapply Forall_impl; [|exact Wz]. cbn beta. intros x Hx. rewrite inRange_ok. unfold endOk. cbn [itReverse it itTerminate]. rewrite Hx, same_nil. destruct endx; [easy|]. now rewrite andb_false_r.
Qed.

Lemma revIter_drains : forall t ls start endx, Shape t ls -> Bytes start -> Bytes endx -> ~ belowAll endx (map asEntry ls) ->
  exists it out, revIter endx start t = Ok it /\ Drains t it out /\ map showAt out = downRange endx start (map asEntry ls).
Proof.
  intros t ls start endx Sh Bs Be G. pose proof (shape_sorted _ _ Sh) as So. pose proof Sh as (R & Sz). unfold revIter. destruct (root t) as [b|] eqn:Rt.
  2:{ subst ls. exists closedIter, []. split; [reflexivity|]. split; [now apply closed_ends|reflexivity]. }
  pose proof (Wf_ne _ _ _ R) as Ne. destruct (Z.ltb_spec (size t) 1) as [L|_]; [destruct ls; [easy|cbn in Sz; lia]|].
  set (it := fun beg : nat => mkIter (version t) [] false start endx true (Z.of_nat beg + 1) None).
  assert (UL : forall beg, downRange endx start (map asEntry ls) = map showAt (filter (fun e => inRange (it beg) (lKey (fst e))) (combine (rev ls) (count true (Z.of_nat (length ls) - 1) (length ls))))) by (intros beg; exact (down_leaves (it beg) ls eq_refl)).
  destruct (find_from LTE start t ls Sh Bs (or_intror eq_refl) ltac:(discriminate)) as (a & Ea & Sa).
  assert (Sa' : seen a = slast (fun k => sameb start [] || negb (ltb start k)) (map asEntry ls)).
  { rewrite Sa. destruct (sameb start []); cbn [emptyFinds wanted]; apply slast_ext; reflexivity. }
  clear Sa. rewrite Ea. cbn [bind]. destruct a as [[l beg]|].
  2:{ exists closedIter, []. split; [reflexivity|]. split; [now apply closed_ends|]. cbn in Sa'. symmetry in Sa'. apply slast_none_inv in Sa'.
      rewrite (UL 0%nat). rewrite none_ranged; [reflexivity|]. apply Forall_rev. eapply Forall_impl; [|exact Sa']. cbn beta. intros x Hx. rewrite inRange_ok. unfold startOk. cbn [itReverse it itCursor]. now rewrite Hx. }
  destruct (find_towards GT endx t ls Sh Be (or_introl eq_refl) (fun _ => G)) as (z & Ez & Sz2). rewrite Ez. cbn [bind]. destruct z as [z|].
  - exists (it beg). eexists. split; [reflexivity|]. split.
    + apply (drains_left (length (turn true ls)) t (it beg) (turn true ls)); [lia|now apply (new_left t b)|now apply (sorted_turn true)].
    + rewrite (UL beg).
      pose proof (ranged_out (it beg) ls (Z.of_nat beg) So) as RO. cbn [itReverse it turn] in RO. rewrite rev_length in RO. cbn [itReverse it turn]. apply RO; [cbn; lia|].
      intros a x c E Fa Hx. cbn [move]. assert (E' : ls = rev c ++ x :: rev a).
      { rewrite <- (rev_involutive ls), E, rev_app_distr. cbn. now rewrite <- app_assoc. }
      rewrite E' in Sa'. rewrite slast_at in Sa'.
      * cbn in Sa'. injection Sa' as _ _ ->. rewrite E'. rewrite app_length. cbn [length]. rewrite !rev_length. lia.
      * apply Forall_rev. eapply Forall_impl; [|exact Fa]. cbn. intros y Hy. unfold startOk in Hy. exact Hy.
      * exact Hx.
  - exists closedIter, []. split; [reflexivity|]. split; [now apply closed_ends|]. destruct (Sz2 eq_refl) as [-> | (Nz & Wz)]; [easy|]. cbn [wanted] in Wz. apply sfirst_none_inv in Wz.
    rewrite (UL 0%nat). rewrite none_ranged; [reflexivity|]. apply Forall_rev. eapply Forall_impl; [|exact Wz]. cbn beta. intros x Hx. rewrite inRange_ok. unfold endOk. cbn [itReverse it itTerminate]. rewrite Hx, same_nil. destruct endx; [easy|]. now rewrite andb_false_r.
Qed.
