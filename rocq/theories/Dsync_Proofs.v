(** Lemmas for directory sync: what each step changes. *)
From Coq Require Import List ZArith Bool Lia Arith.
Import ListNotations.
From Verif Require Import Dsync_Model Dsync_Spec.
Local Open Scope Z_scope.

Lemma is_true p q : is p q = true <-> p = q.
Proof. unfold is. destruct (path_dec p q); intuition congruence. Qed.
Lemma is_refl p : is p p = true. Proof. apply is_true. reflexivity. Qed.
Lemma is_ne p q : p <> q -> is p q = false.
Proof. intros N. destruct (is p q) eqn:E; [|reflexivity]. apply is_true in E. contradiction. Qed.

Lemma get_drop_ne p q f : p <> q -> get (drop q f) p = get f p.
Proof.
  intros N. induction f as [|[k n] f IH]; [reflexivity|]. cbn. destruct (is k q) eqn:E; cbn.
  - apply is_true in E. subst. rewrite (is_ne q p) by congruence. exact IH.
  - destruct (is k p); [reflexivity|exact IH].
Qed.
Lemma get_drop_eq p f : get (drop p f) p = None.
Proof.
  induction f as [|[k n] f IH]; [reflexivity|]. cbn. destruct (is k p) eqn:E; cbn; [exact IH|]. rewrite E. exact IH.
Qed.
Lemma get_put_eq p n f : get (put p n f) p = Some n.
Proof. cbn. rewrite is_refl. reflexivity. Qed.
Lemma get_put_ne p q n f : p <> q -> get (put q n f) p = get f p.
Proof. intros N. cbn. rewrite (is_ne q p) by congruence. apply get_drop_ne. exact N. Qed.

Lemma under_true top p : under top p = true <-> inside top p.
Proof.
  unfold under, inside. rewrite is_true. split.
  - intros E. exists (skipn (length top) p). rewrite <- E at 1. symmetry. apply firstn_skipn.
  - intros [r ->]. rewrite firstn_app, firstn_all, Nat.sub_diag. cbn. apply app_nil_r.
Qed.

Lemma get_dropAll q p f : get (dropAll q f) p = if under q p then None else get f p.
Proof.
  induction f as [|[k n] f IH]; [cbn; destruct (under q p); reflexivity|].
  unfold dropAll in *. cbn. destruct (under q k) eqn:E; cbn.
  - rewrite IH. destruct (is k p) eqn:I; [|reflexivity]. apply is_true in I. subst. rewrite E. reflexivity.
  - destruct (is k p) eqn:I; [|exact IH]. apply is_true in I. subst. rewrite E. reflexivity.
Qed.

Lemma get_in p n f : get f p = Some n -> In (p, n) f.
Proof.
  induction f as [|[k m] f IH]; [discriminate|]. cbn. destruct (is k p) eqn:I.
  - apply is_true in I. intros E. injection E as ->. subst. now left.
  - intros E. right. auto.
Qed.

Lemma join_plain top r : join top (map Nm r) = top ++ r.
Proof.
  unfold join. revert top. induction r as [|n r IH]; intros top; cbn; [symmetry; apply app_nil_r|].
  rewrite IH, <- app_assoc. reflexivity.
Qed.
Lemma map_Nm_inj r s : map Nm r = map Nm s -> r = s.
Proof.
  revert s. induction r as [|n r IH]; intros [|m s] E; try discriminate; [reflexivity|].
  cbn in E. injection E as -> E. f_equal. auto.
Qed.

Lemma mkdirs_get rest : forall pre f g, mkdirs pre rest f = Some g -> forall p,
  get g p = get f p \/
  (get f p = None /\ get g p = Some (NDir 448) /\ exists a b, rest = a ++ b /\ a <> [] /\ p = pre ++ a).
Proof.
  induction rest as [|n rest IH]; intros pre f g E p; [injection E as <-; now left|].
  cbn in E. assert (X : forall f1, mkdirs (pre ++ [n]) rest f1 = Some g ->
    get g p = get f1 p \/ (get f1 p = None /\ get g p = Some (NDir 448) /\ exists a b, n :: rest = a ++ b /\ a <> [] /\ p = pre ++ a)).
  { intros f1 E1. destruct (IH _ _ _ E1 p) as [H|(H & H' & a & b & A & B & C)]; [now left|]. right.
    split; [exact H|]. split; [exact H'|]. exists (n :: a), b. rewrite A, C, <- app_assoc. repeat split; discriminate. }
  destruct (get f (pre ++ [n])) as [[m| |]|] eqn:G; try discriminate.
  - exact (X _ E).
  - specialize (X _ E). destruct (path_dec p (pre ++ [n])) as [->|N].
    + rewrite get_put_eq in X. destruct X as [X|(X & _)]; [|discriminate]. right. split; [exact G|]. split; [exact X|].
      exists [n], rest. repeat split; discriminate.
    + rewrite get_put_ne in X by exact N. exact X.
Qed.

(* After mkdirs every non-empty prefix is a directory. *)
Lemma mkdirs_dir rest : forall pre f g, mkdirs pre rest f = Some g -> forall a b, rest = a ++ b -> a <> [] ->
  exists m, get g (pre ++ a) = Some (NDir m).
Proof.
  induction rest as [|n rest IH]; intros pre f g E a b A NE; [destruct a; [congruence|discriminate]|].
  destruct a as [|n' a]; [congruence|]. cbn in A. injection A as <- A. cbn in E.
  assert (X : forall f1 m, get f1 (pre ++ [n]) = Some (NDir m) -> mkdirs (pre ++ [n]) rest f1 = Some g ->
    exists m, get g (pre ++ n :: a) = Some (NDir m)).
  { intros f1 m G E1. destruct a as [|k a].
    - destruct (mkdirs_get _ _ _ _ E1 (pre ++ [n])) as [H|(H & _)]; [|congruence]. exists m. congruence.
    - destruct (IH _ _ _ E1 (k :: a) b A) as [m' H]; [discriminate|]. exists m'. rewrite <- app_assoc in H. exact H. }
  destruct (get f (pre ++ [n])) as [[m| |]|] eqn:G; try discriminate.
  - exact (X _ _ G E).
  - apply (X _ _ (get_put_eq _ _ _) E).
Qed.

Lemma removeOne_ne p q f : p <> q -> get (removeOne q f) p = get f p.
Proof.
  intros N. unfold removeOne. destruct (get f q) as [[m| |]|]; try reflexivity; try (apply get_drop_ne; exact N).
  destruct (existsb _ f); [reflexivity|apply get_drop_ne; exact N].
Qed.
Lemma removeOne_nondir q f : (forall m, get f q <> Some (NDir m)) -> get (removeOne q f) q = None.
Proof.
  intros N. unfold removeOne. destruct (get f q) as [[m| |]|] eqn:G; [destruct (N m eq_refl)| | |exact G]; apply get_drop_eq.
Qed.
Lemma removeOne_le q f p : get (removeOne q f) p = get f p \/ get (removeOne q f) p = None.
Proof.
  destruct (path_dec p q) as [->|N]; [|left; apply removeOne_ne; exact N].
  unfold removeOne. destruct (get f q) as [[m| |]|] eqn:G; try (right; apply get_drop_eq); [|now left].
  destruct (existsb _ f); [left; exact G|right; apply get_drop_eq].
Qed.

Lemma takeOne_ne top f e g b p : takeOne top f e = Some (g, b) -> p <> join top (ePath e) -> get g p = get f p.
Proof.
  unfold takeOne. intros E N. destruct (eKind e) as [| | |t].
  1-3: destruct (get f (join top (ePath e))); injection E as <- _; reflexivity.
  assert (X : match get (removeOne (join top (ePath e)) f) (join top (ePath e)) with
     | Some _ => None
     | None => if hasParent (join top (ePath e)) (removeOne (join top (ePath e)) f)
               then Some (put (join top (ePath e)) (NLink t (eTime e)) (removeOne (join top (ePath e)) f), false) else None
     end = Some (g, b) -> get g p = get f p).
  { intros E1. destruct (get (removeOne _ f) _); [discriminate|]. destruct (hasParent _ _); [|discriminate].
    injection E1 as <- _. rewrite get_put_ne by exact N. apply removeOne_ne. exact N. }
  destruct (get f (join top (ePath e))) as [[| |t' tm]|]; auto.
  destruct (path_dec t' t); auto. injection E as <- _. apply get_put_ne. exact N.
Qed.
Lemma takeOne_link top f e g b t : takeOne top f e = Some (g, b) -> eKind e = KLink t ->
  get g (join top (ePath e)) = Some (NLink t (eTime e)) /\ b = false.
Proof.
  unfold takeOne. intros E K. rewrite K in E.
  assert (X : match get (removeOne (join top (ePath e)) f) (join top (ePath e)) with
     | Some _ => None
     | None => if hasParent (join top (ePath e)) (removeOne (join top (ePath e)) f)
               then Some (put (join top (ePath e)) (NLink t (eTime e)) (removeOne (join top (ePath e)) f), false) else None
     end = Some (g, b) -> get g (join top (ePath e)) = Some (NLink t (eTime e)) /\ b = false).
  { intros E1. destruct (get (removeOne _ f) _); [discriminate|]. destruct (hasParent _ _); [|discriminate].
    injection E1 as <- <-. split; [apply get_put_eq|reflexivity]. }
  destruct (get f (join top (ePath e))) as [[| |t' tm]|]; auto.
  destruct (path_dec t' t); auto. injection E as <- <-. split; [apply get_put_eq|reflexivity].
Qed.
Lemma takeOne_file top f e g b : takeOne top f e = Some (g, b) -> eKind e = KFile ->
  g = f /\ b = match get f (join top (ePath e)) with
               | None => true
               | Some n => negb ((second (nTime n) =? second (eTime e)) && (nSize n =? eSize e)) end.
Proof. unfold takeOne. intros E K. rewrite K in E. destruct (get f _); injection E as <- <-; auto. Qed.

(* What one entry can do to a path. *)
Lemma takeEntry_get top f e g b p : takeEntry top f e = Some (g, b) ->
  get g p = get f p \/
  (eKind e = KLeaf /\ get f p = None /\ get g p = Some (NDir 448) /\ exists s, join top (ePath e) = p ++ s) \/
  (eKind e = KMid /\ p = join top (ePath e) /\
     ((exists m, get f p = Some (NDir m) /\ get g p = Some (NDir (eMode e))) \/
      (exists d t m, get f p = Some (NFile d t m) /\ get g p = Some (NFile d t (eMode e))))) \/
  (exists t, eKind e = KLink t /\ p = join top (ePath e) /\ get g p = Some (NLink t (eTime e))).
Proof.
  unfold takeEntry. intros E. destruct (eKind e) as [| | |t] eqn:K.
  - assert (X : option_map (fun g => (g, false)) (mkdirs [] (join top (ePath e)) f) = Some (g, b)).
    { destruct (ePath e) as [|[|n] r]; [exact E|discriminate|exact E]. }
    destruct (mkdirs [] _ f) as [h|] eqn:M; [|discriminate]. cbn in X. injection X as -> _.
    destruct (mkdirs_get _ _ _ _ M p) as [H|(H & H' & a & c & A & _ & ->)]; [now left|].
    right. left. repeat split; auto. exists c. exact A.
  - destruct (chmod _ _ f) as [h|] eqn:M; [|discriminate]. cbn in E. injection E as -> _. unfold chmod in M.
    destruct (path_dec p (join top (ePath e))) as [->|N].
    + right. right. left. split; [reflexivity|]. split; [reflexivity|].
      destruct (get f (join top (ePath e))) as [[m|d t m|]|]; try discriminate; injection M as <-; rewrite get_put_eq; eauto 8.
    + left. destruct (get f (join top (ePath e))) as [[m|d t m|]|]; try discriminate; injection M as <-; apply get_put_ne; exact N.
  - destruct (takeOne_file _ _ _ _ _ E K) as [-> _]. now left.
  - destruct (path_dec p (join top (ePath e))) as [->|N].
    + right. right. right. exists t. destruct (takeOne_link _ _ _ _ _ _ E K) as [H _]. auto.
    + left. exact (takeOne_ne _ _ _ _ _ _ E N).
Qed.

Lemma takeAll_cons top f e l h needs : takeAll top f (e :: l) = Some (h, needs) ->
  exists g b n2, takeEntry top f e = Some (g, b) /\ takeAll top g l = Some (h, n2) /\ needs = if b then e :: n2 else n2.
Proof.
  cbn. destruct (takeEntry top f e) as [[g b]|]; [|discriminate].
  destruct (takeAll top g l) as [[h' n2]|] eqn:E; [|discriminate]. intros X. injection X as -> <-. eauto 8.
Qed.

(* A property of what is at a path that no entry undoes holds at the end. *)
Lemma takeAll_keep top p (Q : option node -> Prop) l : forall f h needs,
  (forall e f g b, In e l -> takeEntry top f e = Some (g, b) -> Q (get f p) -> Q (get g p)) ->
  takeAll top f l = Some (h, needs) -> Q (get f p) -> Q (get h p).
Proof.
  induction l as [|e l IH]; intros f h needs S E H; [injection E as <- _; exact H|].
  destruct (takeAll_cons _ _ _ _ _ _ E) as (g & b & n2 & E1 & E2 & _).
  apply (IH g h n2); [|exact E2|].
  - intros e' f' g' b' I. apply S. now right.
  - apply (S e f g b); [now left|exact E1|exact H].
Qed.

Lemma fetch_ne top give f e g p : fetch top give f e = Some g -> p <> join top (ePath e) -> get g p = get f p.
Proof.
  unfold fetch. intros E N. destruct (get f (join top (ePath e))) as [[|[|]|]|]; try discriminate;
  (destruct (hasParent _ f); [|discriminate]; injection E as <-; apply get_put_ne; exact N).
Qed.

Definition fstep top give (fin : entry -> bool) (bad : bool) (g : fsys) (e : entry) : fsys :=
  match fetch top give g e with None => g | Some h => if negb bad || fin e then h else g end.

Lemma fetchAll_unfold top give fin f needs :
  fetchAll top give fin f needs = fold_left (fstep top give fin (existsb (fails top give f) needs)) needs f.
Proof. reflexivity. Qed.

(* What a fetch can do to a path. *)
Lemma fstep_get top give fin bad f e p :
  get (fstep top give fin bad f e) p = get f p \/
  (p = join top (ePath e) /\ (get f p = None \/ exists t m, get f p = Some (NFile [] t m)) /\
   get (fstep top give fin bad f e) p = Some (NFile (give (ePath e)) (eTime e) (eMode e))).
Proof.
  unfold fstep. destruct (fetch top give f e) as [h|] eqn:E; [|now left].
  destruct (negb bad || fin e); [|now left].
  destruct (path_dec p (join top (ePath e))) as [->|N]; [|left; exact (fetch_ne _ _ _ _ _ _ E N)].
  right. split; [reflexivity|]. unfold fetch in E.
  destruct (get f (join top (ePath e))) as [[|[|]|]|] eqn:G; try discriminate;
  (destruct (hasParent _ f); [|discriminate]; injection E as <-; rewrite get_put_eq; split; [eauto|reflexivity]).
Qed.

Lemma fold_keep {A} (step : fsys -> A -> fsys) p (Q : option node -> Prop) l : forall f,
  (forall x f, In x l -> Q (get f p) -> Q (get (step f x) p)) -> Q (get f p) -> Q (get (fold_left step l f) p).
Proof.
  induction l as [|x l IH]; intros f S H; [exact H|]. cbn. apply IH.
  - intros y g I. apply S. now right.
  - apply S; [now left|exact H].
Qed.

Lemma removeLeft_get dry f x p : get (removeLeft dry f x) p = get f p \/
  (dry = false /\ inside (fst x) p /\ get (removeLeft dry f x) p = None).
Proof.
  unfold removeLeft. destruct dry; [now left|]. destruct x as [q [|]]; cbn [fst snd].
  - rewrite get_dropAll. destruct (under q p) eqn:U; [|now left]. apply under_true in U. now right.
  - destruct (removeOne_le q f p) as [H|H]; [now left|].
    destruct (path_dec p q) as [->|N].
    + right. split; [reflexivity|]. split; [exists []; symmetry; apply app_nil_r|exact H].
    + left. apply removeOne_ne. exact N.
Qed.

Lemma in_catalog top f p b : In (p, b) (catalog top f) -> beneath top p.
Proof.
  unfold catalog. intros I. apply in_map_iff in I. destruct I as ([q n] & E & I). cbn in E. injection E as -> _.
  apply filter_In in I. destruct I as [_ I]. cbn in I. apply andb_prop in I. destruct I as [U N].
  apply under_true in U. destruct U as [[|a r] ->].
  - rewrite app_nil_r, is_refl in N. discriminate.
  - exists a, r. reflexivity.
Qed.

Lemma relName_app top r : relName top (top ++ r) = map Nm r.
Proof. unfold relName. f_equal. rewrite skipn_app, skipn_all, Nat.sub_diag. reflexivity. Qed.

Definition listed (top : path) (l : list entry) (p : path) : Prop := exists e, In e l /\ names top e p.

Lemma in_leftovers top f l p b : In (p, b) (leftovers top f l) -> beneath top p /\ ~ listed top l p.
Proof.
  unfold leftovers. intros I. apply filter_In in I. destruct I as [I N]. split; [exact (in_catalog _ _ _ _ I)|].
  intros (e & IE & r & EP & ->). cbn [fst] in N. rewrite relName_app in N. apply negb_true_iff in N.
  rewrite <- not_true_iff_false in N. apply N. apply existsb_exists. exists e. split; [exact IE|].
  destruct (rpath_dec (ePath e) (map Nm r)); [reflexivity|contradiction].
Qed.

Lemma leftovers_in top f l p n : get f p = Some n -> beneath top p -> ~ listed top l p ->
  In (p, match n with NDir _ => true | _ => false end) (leftovers top f l).
Proof.
  intros G B N. unfold leftovers. apply filter_In. split.
  - unfold catalog. apply in_map_iff. exists (p, n). split; [reflexivity|]. apply filter_In. split; [exact (get_in _ _ _ G)|].
    cbn. destruct B as (a & r & ->). apply andb_true_intro. split.
    + apply under_true. exists (a :: r). reflexivity.
    + rewrite is_ne; [reflexivity|]. intros E. apply (f_equal (@length nat)) in E. rewrite app_length in E. cbn in E. lia.
  - destruct B as (a & r & ->). cbn [fst]. rewrite relName_app. apply negb_true_iff, not_true_iff_false. intros X.
    apply existsb_exists in X. destruct X as (e & IE & X). apply N. exists e. split; [exact IE|]. exists (a :: r). split; [|reflexivity].
    destruct (rpath_dec (ePath e) (map Nm (a :: r))); [assumption|discriminate].
Qed.
