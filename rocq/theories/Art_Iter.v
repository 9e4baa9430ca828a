(** Iterators: what is left to visit on the stack. *)
From Coq Require Import List ZArith Lia Bool Sorting.Sorted.
From Verif Require Import Base Art_Model Art_Node Art_Node2 Art_Tree Art_Tree2 Art_Tree3 Art_Search.
Import ListNotations.
Open Scope Z_scope.

(** ** One node: the entries still to visit, in the order of the visit. *)
Definition Frame (rv : bool) (n : inode bnode) (cur : option Z) (todo : list (Z * bnode)) : Prop :=
  exists done, if rv
  then Ents n (rev todo ++ done) /\ match cur with None => done = [] | Some k => Forall (fun e => fst e < k) (rev todo) /\ Forall (fun e => k <= fst e) done end
  else Ents n (done ++ todo) /\ match cur with None => done = [] | Some k => Forall (fun e => fst e <= k) done /\ Forall (fun e => k < fst e) todo end.

Definition advance (rv : bool) (n : inode bnode) (cur : option Z) := if rv then prev n cur else next n cur.

Lemma frame_start : forall rv n es, Ents n es -> Frame rv n None (if rv then rev es else es).
Proof. intros [] n es E; exists []; (split; [|reflexivity]); [rewrite rev_involutive, app_nil_r; exact E|exact E]. Qed.

Lemma frame_nil : forall rv n cur, Frame rv n cur [] -> advance rv n cur = None.
Proof.
  intros [] n cur (done & E & H); cbn in *; unfold advance.
  - destruct cur as [k|].
    + rewrite (prev_spec n k [] done E); [reflexivity|constructor|apply H].
    + subst done. now rewrite (prev_last n [] E).
  - rewrite app_nil_r in E. destruct cur as [k|].
    + rewrite (next_spec n k done []); [reflexivity|now rewrite app_nil_r|apply H|constructor].
    + subst done. now rewrite (next_first n [] E).
Qed.

Lemma frame_cons : forall rv n cur b c todo, Frame rv n cur ((b, c) :: todo) ->
  exists i, advance rv n cur = Some (b, i) /\ kid n i = Some c /\ Frame rv n (Some b) todo.
Proof.
  intros [] n cur b c todo (done & E & H); cbn [rev] in *; unfold advance.
  - assert (E2 : Ents n (rev todo ++ (b, c) :: done)) by (rewrite <- app_assoc in E; exact E).
    exists (idx n (length (rev todo)) b). split; [|split; [now apply kid_at with (es2 := done)|]].
    + assert (L : (length (rev todo ++ [(b, c)]) - 1)%nat = length (rev todo)) by (rewrite app_length; cbn; lia).
      destruct cur as [k|].
      * rewrite (prev_spec n k (rev todo ++ [(b, c)]) done E (proj1 H) (proj2 H)). rewrite rev_app_distr. cbn [rev app]. now rewrite L.
      * subst done. rewrite app_nil_r in E. rewrite (prev_last n _ E). rewrite rev_app_distr. cbn [rev app]. now rewrite L.
    + exists ((b, c) :: done). split; [exact E2|]. destruct (ents_split _ _ _ _ (proj1 E2)) as (Lo & Hi). split; [now apply Forall_forall|].
      constructor; [cbn; lia|]. apply Forall_forall. intros e He. specialize (Hi _ He). lia.
  - exists (idx n (length done) b). split; [|split; [now apply kid_at with (es2 := todo)|]].
    + destruct cur as [k|].
      * now rewrite (next_spec n k done ((b, c) :: todo) E (proj1 H) (proj2 H)).
      * subst done. now rewrite (next_first n _ E).
    + exists (done ++ [(b, c)]). split; [now rewrite <- app_assoc|]. destruct (ents_split _ _ _ _ (proj1 E)) as (Lo & Hi). split; [|now apply Forall_forall].
      apply Forall_app. split; [|constructor; [cbn; lia|constructor]]. apply Forall_forall. intros e He. specialize (Lo _ He). lia.
Qed.

(** The leaves below entries, in the order of the visit. *)
Definition turn {A} (rv : bool) (l : list A) : list A := if rv then rev l else l.
Inductive Below (P : bytes -> bnode -> list leaf -> Prop) (rv : bool) (q : bytes) : list (Z * bnode) -> list leaf -> Prop :=
| Below_nil : Below P rv q [] []
| Below_cons b c ls todo r : P (q ++ [b]) c ls -> Below P rv q todo r -> Below P rv q ((b, c) :: todo) (turn rv ls ++ r).

Lemma below_app : forall P rv q a la b lb, Below P rv q a la -> Below P rv q b lb -> Below P rv q (a ++ b) (la ++ lb).
Proof. induction 1; intros Hb; cbn; [exact Hb|]. rewrite <- app_assoc. constructor; auto. Qed.

Lemma below_mono : forall (P Q : bytes -> bnode -> list leaf -> Prop) rv q a la, (forall q c ls, P q c ls -> Q q c ls) -> Below P rv q a la -> Below Q rv q a la.
Proof. induction 2; constructor; auto. Qed.

Lemma below_kids : forall (P : bytes -> bnode -> list leaf -> Prop) rv q es0 lss0,
  (forall es1 b c es2 lss1 ls lss2, es0 = es1 ++ (b, c) :: es2 -> lss0 = lss1 ++ ls :: lss2 ->
        WfK q es1 lss1 -> Wf (q ++ [b]) c ls -> WfK q es2 lss2 -> P (q ++ [b]) c ls) ->
  WfK q es0 lss0 -> Below P rv q (turn rv es0) (turn rv (concat lss0)).
Proof.
  intros P rv q es0 lss0 H W0.
  assert (X : forall es2 es1 lss1 lss2, es0 = es1 ++ es2 -> lss0 = lss1 ++ lss2 -> WfK q es1 lss1 -> WfK q es2 lss2 ->
    Below P rv q (turn rv es2) (turn rv (concat lss2))).
  { induction es2 as [|[b c] es2 IH]; intros es1 lss1 lss2 E L W1 W2.
    - inversion W2; subst. destruct rv; constructor.
    - inversion W2 as [|? ? ? ? ls lss2' Wc Wr]; subst.
      assert (Pc : P (q ++ [b]) c ls) by (eapply H; eauto).
      assert (B := IH (es1 ++ [(b, c)]) (lss1 ++ [ls]) lss2' ltac:(now rewrite <- app_assoc) ltac:(now rewrite <- app_assoc)
         ltac:(apply WfK_app; [exact W1|constructor; [exact Wc|constructor]]) Wr).
      destruct rv; cbn [turn rev concat] in *.
      + rewrite rev_app_distr. apply below_app; [exact B|]. rewrite <- (app_nil_r (rev ls)). exact (Below_cons P true q b c ls [] [] Pc (Below_nil _ _ _)).
      + exact (Below_cons P false q b c ls _ _ Pc B). }
  apply (X es0 [] [] lss0); auto. constructor.
Qed.

(** The leaves still to visit. *)
Inductive Rest (rv : bool) : list (inode bnode * option Z) -> list leaf -> Prop :=
| Rest_nil : Rest rv [] []
| Rest_cons n cur q todo ls st r : Frame rv n cur todo -> Below Wf rv q todo ls -> Rest rv st r -> Rest rv ((n, cur) :: st) (ls ++ r).

(** ** Running *)
Definition Goes (it it' : iterator) : Prop := exists m, forall f, iterate (m + f) it = iterate f it'.
Definition Stops (it : iterator) (x : iterator * bool) : Prop := exists m, forall f, iterate (m + f) it = Some x.

Lemma goes_refl : forall it, Goes it it.
Proof. intros it. now exists 0%nat. Qed.
Lemma goes_trans : forall a b c, Goes a b -> Goes b c -> Goes a c.
Proof. intros a b c (m & H) (k & K). exists (m + k)%nat. intros f. rewrite <- Nat.add_assoc, H. apply K. Qed.
Lemma goes_stops : forall a b x, Goes a b -> Stops b x -> Stops a x.
Proof. intros a b c (m & H) (k & K). exists (m + k)%nat. intros f. rewrite <- Nat.add_assoc, H. apply K. Qed.

Definition land (it : iterator) (st : list (inode bnode * option Z)) (l : leaf) : iterator :=
  mkIter (itVersion it) st (itClosed it) (lKey l) (itTerminate it) (itReverse it) (itIdx it) (Some l).

(** From a stack with [ls] on top: stop at the first leaf in range, or drop the top. *)
Definition Run (it : iterator) (st : list (inode bnode * option Z)) (ls : list leaf) (below : list (inode bnode * option Z)) (r : list leaf) : Prop :=
  (Forall (fun l => inRange it (lKey l) = false) ls /\ Goes (setStack st it) (setStack below it)) \/
  (exists l1 l l2 st', ls = l1 ++ l :: l2 /\ Forall (fun l => inRange it (lKey l) = false) l1 /\ inRange it (lKey l) = true /\
     Rest (itReverse it) st' (l2 ++ r) /\ st' <> [] /\ Stops (setStack st it) (land it st' l, true)).

Lemma one_step : forall it it', (forall f, iterate (S f) it = iterate f it') -> Goes it it'.
Proof. intros it it' H. exists 1%nat. exact H. Qed.

Definition RunKid (it : iterator) (p : bytes) (b : bnode) (ls : list leaf) : Prop :=
  match b with
  | BLeaf _ _ => True
  | BInner _ _ _ _ nd => forall below r, Rest (itReverse it) below r -> Run it ((nd, None) :: below) (turn (itReverse it) ls) below r
  end.

Lemma run_frame : forall it n q todo ls cur below r, Frame (itReverse it) n cur todo -> Below (fun q c ls => Wf q c ls /\ RunKid it q c ls) (itReverse it) q todo ls ->
  Rest (itReverse it) below r -> Run it ((n, cur) :: below) ls below r.
Proof.
  intros it n q todo. induction todo as [|[b c] todo IH]; intros ls cur below r F B R.
  - inversion B; subst. left. split; [constructor|]. apply one_step. intros f. cbn [iterate itStack setStack itReverse].
    pose proof (frame_nil _ _ _ F) as A. unfold advance in A. rewrite A. reflexivity.
  - inversion B as [|? ? lc ? rl (Wc & K) Br]; subst. destruct (frame_cons _ _ _ _ _ _ F) as (i & A & Ki & F').
    unfold advance in A.
    assert (IH' := IH rl (Some b) below r F' Br R). clear IH.
    assert (Rn : Rest (itReverse it) ((n, Some b) :: below) (rl ++ r)) by (apply Rest_cons with (q := q) (todo := todo); [exact F'|revert Br; apply below_mono; tauto|exact R]).
    destruct c as [pc l|pc comp ok sub nd].
    + inversion Wc as [? ? ? Pl Bl|]; subst. replace (turn (itReverse it) [l]) with [l] by (unfold turn; now destruct (itReverse it)).
      destruct (inRange it (lKey l)) eqn:IR.
      * right. exists [], l, rl, ((n, Some b) :: below). split; [reflexivity|]. split; [constructor|]. split; [exact IR|]. split; [exact Rn|]. split; [discriminate|].
        exists 1%nat. intros f. cbn [Nat.add iterate itStack setStack itReverse]. rewrite A, Ki.
        replace (inRange _ (lKey l)) with (inRange it (lKey l)) by reflexivity. rewrite IR. reflexivity.
      * assert (G : Goes (setStack ((n, cur) :: below) it) (setStack ((n, Some b) :: below) it)).
        { apply one_step. intros f. cbn [iterate itStack setStack itReverse]. rewrite A, Ki.
          replace (inRange _ (lKey l)) with (inRange it (lKey l)) by reflexivity. rewrite IR. reflexivity. }
        destruct IH' as [(Fo & G')|(l1 & x & l2 & st' & -> & Fo & Ix & Rx & Nx & Sx)].
        -- left. split; [now constructor|]. eapply goes_trans; eauto.
        -- right. exists (l :: l1), x, l2, st'. split; [reflexivity|]. split; [now constructor|]. split; [exact Ix|]. split; [exact Rx|]. split; [exact Nx|]. eapply goes_stops; eauto.
    + assert (G : Goes (setStack ((n, cur) :: below) it) (setStack ((nd, None) :: (n, Some b) :: below) it)).
      { apply one_step. intros f. cbn [iterate itStack setStack itReverse]. rewrite A, Ki. reflexivity. }
      cbn in K.
      destruct (K _ _ Rn) as [(Fo & G2)|(l1 & x & l2 & st' & E & Fo & Ix & Rx & Nx & Sx)].
      * destruct IH' as [(Fo' & G')|(l1 & x & l2 & st' & -> & Fo' & Ix & Rx & Nx & Sx)].
        -- left. split; [now apply Forall_app|]. eapply goes_trans; [exact G|]. eapply goes_trans; eauto.
        -- right. exists (turn (itReverse it) lc ++ l1), x, l2, st'. split; [now rewrite <- app_assoc|]. split; [now apply Forall_app|]. split; [exact Ix|]. split; [exact Rx|]. split; [exact Nx|].
           eapply goes_stops; [exact G|]. eapply goes_stops; eauto.
      * right. exists l1, x, (l2 ++ rl), st'. rewrite E. split; [rewrite <- app_assoc; reflexivity|]. split; [exact Fo|]. split; [exact Ix|].
        split; [rewrite <- app_assoc; exact Rx|]. split; [exact Nx|]. eapply goes_stops; eauto.
Qed.

Lemma run_kid : forall it p b ls, Wf p b ls -> RunKid it p b ls.
Proof.
  intros it. apply Wf_rec; [intros; exact I|]. intros p pren comp ok sub nd es lss E Lo WK Es Pr IH below r R.
  apply (run_frame it nd (p ++ comp) (turn (itReverse it) es)); auto.
  - now apply frame_start.
  - apply below_kids; auto. intros. split; [assumption|]. eapply IH; eauto.
Qed.

Lemma run_below : forall it rv q todo ls, Below Wf rv q todo ls -> Below (fun q c ls => Wf q c ls /\ RunKid it q c ls) rv q todo ls.
Proof. intros it rv q todo ls. apply below_mono. intros. split; [assumption|now apply run_kid]. Qed.

(** The whole stack. *)
Lemma run_rest : forall it st ls, Rest (itReverse it) st ls ->
  (Forall (fun l => inRange it (lKey l) = false) ls /\ Stops (setStack st it) (setClosed (setStack [] it), false)) \/
  (exists l1 l l2 st', ls = l1 ++ l :: l2 /\ Forall (fun l => inRange it (lKey l) = false) l1 /\ inRange it (lKey l) = true /\
     Rest (itReverse it) st' l2 /\ st' <> [] /\ Stops (setStack st it) (land it st' l, true)).
Proof.
  intros it st ls R. remember (itReverse it) as rv eqn:Erv. induction R as [|n cur q todo ls st r F B R IH]; subst rv.
  - left. split; [constructor|]. exists 1%nat. intros f. reflexivity.
  - destruct (run_frame it n q todo ls cur st r F (run_below _ _ _ _ _ B) R) as [(Fo & G)|(l1 & x & l2 & st' & -> & Fo & Ix & Rx & Nx & Sx)].
    + destruct IH as [(Fo' & G')|(l1 & x & l2 & st' & -> & Fo' & Ix & Rx & Nx & Sx)].
      * left. split; [now apply Forall_app|]. eapply goes_stops; eauto.
      * right. exists (ls ++ l1), x, l2, st'. split; [now rewrite <- app_assoc|]. split; [now apply Forall_app|]. split; [exact Ix|]. split; [exact Rx|]. split; [exact Nx|]. eapply goes_stops; eauto.
    + right. exists l1, x, (l2 ++ r), st'. split; [now rewrite <- app_assoc|]. repeat (split; [assumption|]). exact Sx.
Qed.

(** ** Next *)
Definition Next (t : tree) (it it' : iterator) (ok : bool) : Prop :=
  exists N, forall fuel, (N <= fuel)%nat -> nextIter fuel t it = Ok (Some (it', ok)).

Lemma next_det : forall t it it1 ok1 it2 ok2, Next t it it1 ok1 -> Next t it it2 ok2 -> it1 = it2 /\ ok1 = ok2.
Proof.
  intros t it it1 ok1 it2 ok2 (N1 & H1) (N2 & H2). specialize (H1 (N1 + N2)%nat ltac:(lia)). specialize (H2 (N1 + N2)%nat ltac:(lia)).
  rewrite H1 in H2. now inversion H2.
Qed.

Definition bump (it : iterator) : Z := if itReverse it then itIdx it - 1 else itIdx it + 1.

(** What an iterator on an unmodified tree has left. *)
Definition Left (t : tree) (it : iterator) (rem : list leaf) : Prop :=
  itClosed it = false /\ itVersion it = version t /\
  exists b ls, root t = Some b /\ Wf [] b ls /\
    ((itStack it = [] /\ rem = turn (itReverse it) ls) \/ (itStack it <> [] /\ Rest (itReverse it) (itStack it) rem)).

Lemma turn_one : forall {A} rv (x : A), turn rv [x] = [x].
Proof. intros A [] x; reflexivity. Qed.

Lemma next_left : forall t it rem, Left t it rem ->
  exists it' ok, Next t it it' ok /\
   ((ok = false /\ itClosed it' = true /\ Forall (fun l => inRange it (lKey l) = false) rem) \/
    (ok = true /\ exists l1 l l2, rem = l1 ++ l :: l2 /\ Forall (fun l => inRange it (lKey l) = false) l1 /\ inRange it (lKey l) = true /\
       itLeaf it' = Some l /\ itIdx it' = bump it /\ itTerminate it' = itTerminate it /\ itReverse it' = itReverse it /\ itVersion it' = itVersion it /\
       ((itClosed it' = true /\ l2 = []) \/ (itCursor it' = lKey l /\ Left t it' l2)))).
Proof.
  intros t it rem (C & V & b & ls & Rt & W & D).
  assert (U : forall fuel, nextIter fuel t it = nextStep fuel t (mkIter (itVersion it) (itStack it) false (itCursor it) (itTerminate it) (itReverse it) (bump it) (itLeaf it))).
  { intros fuel. unfold nextIter. rewrite C, V, Z.eqb_refl. reflexivity. }
  set (it0 := mkIter (itVersion it) (itStack it) false (itCursor it) (itTerminate it) (itReverse it) (bump it) (itLeaf it)) in *.
  assert (Go : forall st, Rest (itReverse it) st rem -> (forall fuel, nextStep fuel t it0 = Ok (iterate fuel (setStack st it0))) ->
    exists it' ok, Next t it it' ok /\
   ((ok = false /\ itClosed it' = true /\ Forall (fun l => inRange it (lKey l) = false) rem) \/
    (ok = true /\ exists l1 l l2, rem = l1 ++ l :: l2 /\ Forall (fun l => inRange it (lKey l) = false) l1 /\ inRange it (lKey l) = true /\
       itLeaf it' = Some l /\ itIdx it' = bump it /\ itTerminate it' = itTerminate it /\ itReverse it' = itReverse it /\ itVersion it' = itVersion it /\
       ((itClosed it' = true /\ l2 = []) \/ (itCursor it' = lKey l /\ Left t it' l2))))).
  { intros st R Hs. destruct (run_rest it0 st rem R) as [(Fo & m & G)|(l1 & x & l2 & st' & -> & Fo & Ix & Rx & Nx & m & Sx)].
    - exists (setClosed (setStack [] it0)), false. split.
      + exists m. intros fuel L. rewrite U, Hs. replace fuel with (m + (fuel - m))%nat by lia. now rewrite G.
      + left. split; [reflexivity|]. split; [reflexivity|exact Fo].
    - exists (land it0 st' x), true. split.
      + exists m. intros fuel L. rewrite U, Hs. replace fuel with (m + (fuel - m))%nat by lia. now rewrite Sx.
      + right. split; [reflexivity|]. exists l1, x, l2. split; [reflexivity|]. split; [exact Fo|]. split; [exact Ix|].
        repeat (split; [reflexivity|]). right. split; [reflexivity|]. split; [reflexivity|]. split; [exact V|]. exists b, ls. split; [exact Rt|]. split; [exact W|].
        right. split; [exact Nx|exact Rx]. }
  destruct D as [(E0 & ->)|(E0 & R)].
  - destruct b as [pr l|pr comp ok sub nd].
    + inversion W; subst. destruct (inRange it (lKey l)) eqn:IR.
      * exists (mkIter (itVersion it) [] true (itCursor it) (itTerminate it) (itReverse it) (bump it) (Some l)), true. split.
        -- exists 0%nat. intros fuel _. rewrite U. unfold nextStep, it0. cbn [itStack]. rewrite E0, Rt.
           replace (inRange _ (lKey l)) with (inRange it (lKey l)) by reflexivity. rewrite IR. reflexivity.
        -- right. split; [reflexivity|]. exists [], l, []. split; [now rewrite turn_one|]. split; [constructor|]. split; [exact IR|].
           repeat (split; [reflexivity|]). left. split; reflexivity.
      * exists (setClosed it0), false. split.
        -- exists 0%nat. intros fuel _. rewrite U. unfold nextStep, it0. cbn [itStack]. rewrite E0, Rt.
           replace (inRange _ (lKey l)) with (inRange it (lKey l)) by reflexivity. rewrite IR. reflexivity.
        -- left. split; [reflexivity|]. split; [reflexivity|]. rewrite turn_one. now constructor.
    + apply (Go [(nd, None)]).
      * inversion W as [|? ? ? ? ? ? es lss ? E Lo WK El Es Pr]; subst. rewrite <- (app_nil_r (turn _ _)). apply Rest_cons with (q := [] ++ comp) (todo := turn (itReverse it) es).
        -- now apply frame_start.
        -- apply below_kids; auto.
        -- constructor.
      * intros fuel. unfold nextStep, it0. cbn [itStack]. rewrite E0, Rt. reflexivity.
  - apply (Go (itStack it)); [exact R|]. intros fuel. unfold nextStep, it0. cbn [itStack]. destruct (itStack it); [congruence|reflexivity].
Qed.

(** ** Draining an iterator *)
Inductive Drains (t : tree) : iterator -> list (leaf * Z) -> Prop :=
| Drains_end it it' : Next t it it' false -> Drains t it []
| Drains_more it it' l out : Next t it it' true -> itLeaf it' = Some l -> Drains t it' out -> Drains t it ((l, itIdx it') :: out).

Lemma drains_det : forall t it out1, Drains t it out1 -> forall out2, Drains t it out2 -> out1 = out2.
Proof.
  induction 1 as [it it' N|it it' l out N L D IH]; intros out2 D2; inversion D2 as [? ? N2|? ? ? ? N2 L2 D2']; subst.
  - reflexivity.
  - now destruct (next_det _ _ _ _ _ _ N N2).
  - now destruct (next_det _ _ _ _ _ _ N N2).
  - destruct (next_det _ _ _ _ _ _ N N2) as (-> & _). rewrite L in L2. injection L2 as ->. f_equal. auto.
Qed.

Lemma closed_ends : forall t it, itClosed it = true -> Drains t it [].
Proof. intros t it C. apply (Drains_end t it it). exists 0%nat. intros fuel _. unfold nextIter. now rewrite C. Qed.

Fixpoint count (rv : bool) (from : Z) (n : nat) : list Z :=
  match n with O => [] | S k => from :: count rv (if rv then from - 1 else from + 1) k end.

Definition along (rv : bool) (x y : leaf) : Prop := if rv then klt y x else klt x y.

Lemma klt_cmp : forall x y, klt x y -> bcmp (lKey x) (lKey y) = Lt.
Proof. auto. Qed.

Lemma inRange_step : forall it it' l x, inRange it (lKey l) = true -> itCursor it' = lKey l -> itTerminate it' = itTerminate it -> itReverse it' = itReverse it ->
  along (itReverse it) l x -> inRange it' (lKey x) = inRange it (lKey x).
Proof.
  intros it it' l x IR Ec Et Er A. unfold inRange in *. rewrite Ec, Et, Er. destruct (itReverse it); cbn in A; apply klt_cmp in A.
  - rewrite A. cbn [orb andb]. apply andb_true_iff in IR as (I1 & _). apply orb_true_iff in I1 as [I1|I1].
    + assert (bcmp (lKey x) (itCursor it) = Lt) as ->; [|reflexivity]. destruct (bcmp (lKey l) (itCursor it)) eqn:K; try discriminate.
      * apply bcmp_eq in K. now rewrite <- K.
      * eapply bcmp_trans; eauto.
    + destruct (itCursor it); [|discriminate]. now rewrite orb_true_r.
  - apply andb_true_iff in IR as (I1 & _). rewrite (bcmp_sym (lKey l) (lKey x)), A. cbn [CompOpp andb].
    assert (bcmp (itCursor it) (lKey x) = Lt) as E.
    { destruct (bcmp (lKey l) (itCursor it)) eqn:K; try discriminate.
      - apply bcmp_eq in K. now rewrite <- K.
      - rewrite (bcmp_sym (itCursor it)) in K. destruct (bcmp (itCursor it) (lKey l)) eqn:K2; try discriminate. eapply bcmp_trans; eauto. }
    rewrite (bcmp_sym (itCursor it) (lKey x)), E. reflexivity.
Qed.

Lemma drains_left : forall n t it rem, (length rem <= n)%nat -> Left t it rem -> StronglySorted (along (itReverse it)) rem ->
  Drains t it (combine (filter (fun l => inRange it (lKey l)) rem) (count (itReverse it) (bump it) (length (filter (fun l => inRange it (lKey l)) rem)))).
Proof.
  assert (FN : forall it ls, Forall (fun l => inRange it (lKey l) = false) ls -> filter (fun l => inRange it (lKey l)) ls = []).
  { intros it ls. induction 1 as [|x ls H F IH]; cbn; [reflexivity|]. now rewrite H. }
  induction n as [|n IH]; intros t it rem Ln L So; destruct (next_left t it rem L) as (it' & ok & N & [(-> & C & F)|(-> & l1 & l & l2 & E & F & IR & El & Ei & Et & Er & Ev & D)]).
  - rewrite (FN _ _ F). cbn. econstructor; eauto.
  - subst rem. rewrite app_length in Ln. cbn in Ln. lia.
  - rewrite (FN _ _ F). cbn. econstructor; eauto.
  - subst rem. rewrite filter_app, (FN _ _ F). cbn [app filter]. rewrite IR. cbn [length count combine]. rewrite <- Ei. apply Drains_more with (it' := it'); auto.
    assert (S2 : StronglySorted (along (itReverse it)) (l :: l2)).
    { clear -So. induction l1 as [|y l1 IH]; [exact So|]. apply IH. now inversion So. }
    apply StronglySorted_inv in S2 as (S2 & Fl).
    assert (Ef : itClosed it' = false \/ l2 <> [] -> filter (fun l => inRange it' (lKey l)) l2 = filter (fun l => inRange it (lKey l)) l2).
    { intros Or. apply filter_ext_in. intros x Hx. destruct D as [(_ & ->)|(Ec & _)]; [easy|].
      apply (inRange_step it it' l x); auto. rewrite Forall_forall in Fl. now apply Fl. }
    destruct D as [(C & ->)|(Ec & L')].
    + cbn. now apply closed_ends.
    + rewrite <- Ef by (left; apply L'). replace (if itReverse it then itIdx it' - 1 else itIdx it' + 1) with (bump it') by (unfold bump; now rewrite Er). rewrite <- Er.
      apply IH; auto.
      * rewrite app_length in Ln. cbn in Ln. lia.
      * now rewrite Er.
Qed.
