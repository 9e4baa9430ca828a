(** What a whole directory sync does to a path. *)
From Coq Require Import List ZArith Bool Lia Arith.
Import ListNotations.
From Verif Require Import Dsync_Model Dsync_Spec Dsync_Proofs Dsync_Tree.
Local Open Scope Z_scope.

Lemma once_inj l e e' : once l -> In e l -> In e' l -> ePath e = ePath e' -> e = e'.
Proof.
  unfold once. induction l as [|x l IH]; intros N I J E; [destruct I|]. cbn in N. inversion N; subst.
  destruct I as [<-|I], J as [<-|J]; [reflexivity| | |auto].
  - exfalso. apply H1. rewrite E. apply in_map. exact J.
  - exfalso. apply H1. rewrite <- E. apply in_map. exact I.
Qed.

Lemma join_names top e r : ePath e = map Nm r -> join top (ePath e) = top ++ r.
Proof. intros ->. apply join_plain. Qed.

Lemma same_path top l e e' p : plain l -> once l -> In e l -> In e' l -> names top e p -> p = join top (ePath e') -> e' = e.
Proof.
  intros PL ON I J (r & E & ->) X. destruct (PL _ J) as [r' E']. rewrite (join_names _ _ _ E') in X. apply app_inv_head in X. subst r'.
  apply (once_inj l); auto. congruence.
Qed.

Lemma app_compare (a b c d : path) : a ++ b = c ++ d -> inside c a \/ inside a c.
Proof.
  revert c. induction a as [|x a IH]; intros c E; [right; exists c; reflexivity|].
  destruct c as [|y c]; [left; exists (x :: a); reflexivity|]. cbn in E. injection E as -> E.
  destruct (IH _ E) as [[r ->]|[r ->]]; [left|right]; exists r; reflexivity.
Qed.

(* A directory of a listed path is listed, as a directory. *)
Lemma closed_dir l e r s : closed l -> In e l -> ePath e = map Nm (r ++ s) -> s <> [] ->
  exists e', In e' l /\ ePath e' = map Nm r /\ (eKind e' = KLeaf \/ eKind e' = KMid).
Proof.
  intros C. revert e. induction s as [|n s IH] using rev_ind; intros e I E NE; [congruence|].
  rewrite app_assoc in E. destruct (C _ _ _ I E) as (e' & I' & E' & K). destruct s as [|m s].
  - rewrite app_nil_r in E'. eauto.
  - apply (IH e' I' E'). discriminate.
Qed.

Lemma needs_in top l : forall f h needs, takeAll top f l = Some (h, needs) -> forall e, In e needs -> In e l /\ eKind e = KFile.
Proof.
  induction l as [|x l IH]; intros f h needs E e I; [injection E as _ <-; destruct I|].
  destruct (takeAll_cons _ _ _ _ _ _ E) as (g & b & n2 & E1 & E2 & ->).
  assert (Y : In e n2 -> In e (x :: l) /\ eKind e = KFile).
  { intros J. destruct (IH _ _ _ E2 _ J). split; [now right|assumption]. }
  destruct b; [|auto]. destruct I as [<-|I]; [|auto]. split; [now left|].
  unfold takeEntry in E1. destruct (eKind x) as [| | |t] eqn:K; [| |reflexivity|].
  - destruct (ePath x) as [|[|n] r]; [|discriminate|]; destruct (mkdirs _ _ _); cbn in E1; discriminate.
  - destruct (chmod _ _ _); cbn in E1; discriminate.
  - destruct (takeOne_link _ _ _ _ _ _ E1 K). discriminate.
Qed.

(* The file differs, by size or second. *)
Definition differs (v : option node) (e : entry) : Prop :=
  match v with None => True | Some n => second (nTime n) <> second (eTime e) \/ nSize n <> eSize e end.

Lemma takeAll_need top e v l : forall f h needs,
  (forall e' f g b, In e' l -> takeEntry top f e' = Some (g, b) -> get f (join top (ePath e)) = v -> get g (join top (ePath e)) = v) ->
  takeAll top f l = Some (h, needs) -> get f (join top (ePath e)) = v -> eKind e = KFile ->
  (In e needs -> differs v e) /\ (In e l -> differs v e -> In e needs).
Proof.
  induction l as [|x l IH]; intros f h needs S E G K; [injection E as _ <-; split; intros []|].
  destruct (takeAll_cons _ _ _ _ _ _ E) as (g & b & n2 & E1 & E2 & ->).
  destruct (IH g h n2) as [A B]; auto.
  { intros e' f' g' b' I. apply S. now right. }
  { apply (S x f g b); auto. now left. }
  assert (C : x = e -> b = true <-> differs v e).
  { intros ->. unfold takeEntry in E1. rewrite K in E1. destruct (takeOne_file _ _ _ _ _ E1 K) as [_ ->]. rewrite G.
    destruct v as [n|]; cbn; [|tauto]. rewrite negb_true_iff, andb_false_iff, !Z.eqb_neq. tauto. }
  split.
  - intros I. destruct b; [|auto]. destruct I as [I|I]; [apply C; auto|auto].
  - intros [I|I] D; [|destruct b; [right|]; auto]. subst x. rewrite (proj2 (C eq_refl) D). now left.
Qed.

Section Sync.
Variables (top : path) (dry : bool) (give : rpath -> list nat) (fin : entry -> bool) (f g : fsys) (l : list entry).
Hypothesis DT : dirTake top dry give fin f l = Some g.

Lemma dt_parts : exists h needs, takeAll top f l = Some (h, needs) /\
  g = fold_left (removeLeft dry) (leftovers top f l) (fetchAll top give fin h needs).
Proof. unfold dirTake in DT. destruct (takeAll top f l) as [[h needs]|]; [|discriminate]. injection DT as <-. eauto. Qed.

Lemma dt_outside p : plain l -> ~ inside top p -> ~ inside p top -> get g p = get f p.
Proof.
  intros PL N1 N2. destruct dt_parts as (h & needs & TA & ->).
  assert (J : forall e, In e l -> p <> join top (ePath e)).
  { intros e I ->. destruct (PL _ I) as [r E]. apply N1. exists r. apply join_names. exact E. }
  apply (fold_keep _ p (fun x => x = get f p)).
  - intros [q b] f1 I X. destruct (removeLeft_get dry f1 (q, b) p) as [H|(_ & [s ->] & _)]; [congruence|].
    exfalso. apply in_leftovers in I. destruct I as [(a & r & E) _]. cbn in N1, E. apply N1. exists ((a :: r) ++ s). subst q. rewrite app_assoc. reflexivity.
  - rewrite fetchAll_unfold. apply (fold_keep _ p (fun x => x = get f p)).
    + intros e f1 I X. destruct (fstep_get top give fin (existsb (fails top give h) needs) f1 e p) as [H|(H & _)]; [congruence|].
      exfalso. apply (J e); [|exact H]. eapply needs_in; eauto.
    + apply (takeAll_keep top p (fun x => x = get f p) l f h needs); auto.
      intros e f1 g1 b I E X. destruct (takeEntry_get _ _ _ _ _ p E) as [H|[(_ & _ & _ & s & H)|[(_ & H & _)|(t & _ & H & _)]]].
      * congruence.
      * exfalso. destruct (PL _ I) as [r ER]. rewrite (join_names _ _ _ ER) in H. destruct (app_compare _ _ _ _ H); contradiction.
      * destruct (J e I H).
      * destruct (J e I H).
Qed.

(* Before the removals nothing goes away. *)
Lemma pre_keep p h needs : takeAll top f l = Some (h, needs) -> get f p <> None -> get (fetchAll top give fin h needs) p <> None.
Proof.
  intros TA N. rewrite fetchAll_unfold. apply (fold_keep _ p (fun x => x <> None)).
  - intros e f1 I X. destruct (fstep_get top give fin (existsb (fails top give h) needs) f1 e p) as [H|(_ & _ & H)]; congruence.
  - apply (takeAll_keep top p (fun x => x <> None) l f h needs); auto.
    intros e f1 g1 b I E X. destruct (takeEntry_get _ _ _ _ _ p E) as [H|[(_ & _ & H & _)|[(_ & _ & [(m & _ & H)|(d & t & m & _ & H)])|(t & _ & _ & H)]]]; congruence.
Qed.

Lemma dt_dry p : dry = true -> get f p <> None -> get g p <> None.
Proof.
  intros DR N. destruct dt_parts as (h & needs & TA & ->). apply (fold_keep _ p (fun x => x <> None)); [|apply pre_keep; auto].
  intros x f1 I X. destruct (removeLeft_get dry f1 x p) as [H|(H & _)]; congruence.
Qed.

Lemma rem_listed p h : proper l -> listed top l p -> get (fold_left (removeLeft dry) (leftovers top f l) h) p = get h p.
Proof.
  intros (PL & ON & CL & _) (e & I & r & E & ->). apply (fold_keep _ (top ++ r) (fun x => x = get h (top ++ r))); [|reflexivity].
  intros [q b] f1 J X. destruct (removeLeft_get dry f1 (q, b) (top ++ r)) as [H|(_ & [s Q] & _)]; [congruence|].
  exfalso. cbn [fst] in Q. apply in_leftovers in J. destruct J as [(a & r' & ->) NL]. rewrite <- app_assoc in Q. apply app_inv_head in Q. subst r.
  apply NL. destruct s as [|x s].
  - exists e. split; [exact I|]. exists (a :: r'). split; [|reflexivity]. rewrite E, app_nil_r. reflexivity.
  - destruct (closed_dir l e (a :: r') (x :: s) CL I E) as (e' & I' & E' & _); [discriminate|].
    exists e'. split; [exact I'|]. exists (a :: r'). auto.
Qed.

Lemma dt_kept p : proper l -> listed top l p -> get f p <> None -> get g p <> None.
Proof.
  intros PR LI N. destruct dt_parts as (h & needs & TA & ->). rewrite rem_listed by assumption. apply pre_keep; auto.
Qed.

Lemma dt_gone p : plain l -> dry = false -> beneath top p -> ~ listed top l p -> get f p <> None -> get g p = None.
Proof.
  intros PL DR B NL N. destruct dt_parts as (h & needs & TA & ->). destruct (get f p) as [n|] eqn:G; [|congruence]. clear N.
  assert (NJ : forall e, In e l -> p <> join top (ePath e)).
  { intros e I ->. destruct (PL _ I) as [r E]. apply NL. exists e. split; [exact I|]. exists r. split; [exact E|]. apply join_names. exact E. }
  assert (H0 : get (fetchAll top give fin h needs) p = Some n).
  { rewrite fetchAll_unfold. apply (fold_keep _ p (fun x => x = Some n)).
    - intros e f1 I X. destruct (fstep_get top give fin (existsb (fails top give h) needs) f1 e p) as [H|(H & _)]; [congruence|].
      destruct (NJ e); [eapply needs_in; eauto|exact H].
    - apply (takeAll_keep top p (fun x => x = Some n) l f h needs); auto.
      intros e f1 g1 b I E X. destruct (takeEntry_get _ _ _ _ _ p E) as [H|[(_ & H & _)|[(_ & H & _)|(t & _ & H & _)]]]; try congruence; destruct (NJ e I H). }
  generalize (leftovers_in top f l p n G B NL).
  assert (Q : get (fetchAll top give fin h needs) p = Some n \/ get (fetchAll top give fin h needs) p = None) by (left; exact H0).
  clear H0 DT. revert Q. generalize (fetchAll top give fin h needs).
  induction (leftovers top f l) as [|[q b] ls IH]; intros k Q I; [destruct I|]. cbn [fold_left].
  assert (Q' : get (removeLeft dry k (q, b)) p = Some n \/ get (removeLeft dry k (q, b)) p = None).
  { destruct (removeLeft_get dry k (q, b) p) as [->|(_ & _ & ->)]; auto. }
  destruct I as [I|I]; [|apply IH; assumption]. injection I as -> ->.
  apply (fold_keep _ p (fun x => x = None)).
  - intros x f1 _ X. destruct (removeLeft_get dry f1 x p) as [H|(_ & _ & H)]; congruence.
  - subst dry. unfold removeLeft. cbn [fst snd]. destruct n; cbn.
    + rewrite get_dropAll. assert (U : under p p = true) by (apply under_true; exists []; symmetry; apply app_nil_r). rewrite U. reflexivity.
    + apply removeOne_nondir. intros m. destruct Q; congruence.
    + apply removeOne_nondir. intros m. destruct Q; congruence.
Qed.

Lemma dt_stuck p e d t m : proper l -> In e l -> eKind e = KFile -> names top e p ->
  get f p = Some (NFile d t m) -> d <> [] -> get g p = Some (NFile d t m).
Proof.
  intros PR I K NM G NE. pose proof PR as (PL & ON & _). destruct dt_parts as (h & needs & TA & ->).
  rewrite rem_listed; [|exact PR|exists e; auto]. rewrite fetchAll_unfold. apply (fold_keep _ p (fun x => x = Some (NFile d t m))).
  - intros e' f1 I' X. destruct (fstep_get top give fin (existsb (fails top give h) needs) f1 e' p) as [H|(_ & [H|(t' & m' & H)] & _)]; congruence.
  - apply (takeAll_keep top p (fun x => x = Some (NFile d t m)) l f h needs); auto.
    intros e' f1 g1 b I' E X. destruct (takeEntry_get _ _ _ _ _ p E) as [H|[(_ & H & _)|[(K' & H & _)|(t' & K' & H & _)]]]; try congruence;
    rewrite (same_path _ _ _ _ _ PL ON I I' NM H) in K'; congruence.
Qed.

(* A listed path of a leaf directory, and all above it, are directories once the listing is taken. *)
Lemma leaf_dirs e q s h needs : In e l -> eKind e = KLeaf -> ePath e = map Nm (q ++ s) -> top ++ q <> [] ->
  (forall e' t, In e' l -> eKind e' = KLink t -> top ++ q <> join top (ePath e')) ->
  takeAll top f l = Some (h, needs) -> exists m, get h (top ++ q) = Some (NDir m).
Proof.
  clear DT. revert f h needs. induction l as [|x l' IH]; intros f0 h needs I K E NE NL TA; [destruct I|].
  destruct (takeAll_cons _ _ _ _ _ _ TA) as (g1 & b & n2 & E1 & E2 & _).
  destruct I as [->|I].
  - apply (takeAll_keep top (top ++ q) (fun x => exists m, x = Some (NDir m)) l' g1 h n2); auto.
    + intros e' f1 g2 b' I' E' (m & X). destruct (takeEntry_get _ _ _ _ _ (top ++ q) E') as [H|[(_ & H & _)|[(_ & _ & [(m' & _ & H)|(d & t & m' & H & _)])|(t & K' & H & _)]]]; try congruence; eauto.
      * exists m. congruence.
      * destruct (NL e' t (or_intror I') K' H).
    + unfold takeEntry in E1. rewrite K in E1.
      assert (X : option_map (fun g => (g, false)) (mkdirs [] (join top (ePath e)) f0) = Some (g1, b)).
      { destruct (ePath e) as [|[|n] r]; [exact E1|discriminate|exact E1]. }
      rewrite (join_names _ _ _ E), app_assoc in X. clear E1. destruct (mkdirs [] ((top ++ q) ++ s) f0) as [k|] eqn:M; [|discriminate]. cbn in X. injection X as -> _.
      exact (mkdirs_dir _ _ _ _ M (top ++ q) s eq_refl NE).
  - apply (IH g1 h n2); auto. intros e' t I'. apply NL. now right.
Qed.

(* The directory of a listed file is a directory then. *)
Lemma parent_dir e r n h needs : proper l -> In e l -> ePath e = map Nm (r ++ [n]) -> takeAll top f l = Some (h, needs) ->
  hasParent (top ++ r ++ [n]) h = true.
Proof.
  intros (PL & ON & CL & LF & _) I E TA. unfold hasParent. rewrite app_assoc, removelast_last.
  destruct (top ++ r) as [|a q] eqn:Q; [reflexivity|]. rewrite <- Q.
  destruct (CL _ _ _ I E) as (e' & I' & E' & K).
  assert (L : exists e2 s, In e2 l /\ eKind e2 = KLeaf /\ ePath e2 = map Nm (r ++ s)).
  { destruct K as [K|K]; [exists e', []; rewrite app_nil_r; auto|apply (LF e'); auto]. }
  destruct L as (e2 & s & I2 & K2 & E2). 
  assert (X : exists m, get h (top ++ r) = Some (NDir m)).
  { apply (leaf_dirs e2 r s h needs I2 K2 E2); [rewrite Q; discriminate| |exact TA].
    intros e3 t I3 K3 H. assert (NM : names top e' (top ++ r)) by (exists r; auto).
    rewrite (same_path _ _ _ _ _ PL ON I' I3 NM H) in K3. destruct K; congruence. }
  destruct X as [m ->]. reflexivity.
Qed.

(* Taking the listing does not touch what is at a listed file's path. *)
Lemma file_keep e p v e' f1 g1 b : proper l -> In e l -> eKind e = KFile -> names top e p -> In e' l ->
  takeEntry top f1 e' = Some (g1, b) -> get f1 p = v -> get g1 p = v.
Proof.
  intros (PL & ON & CL & _) I K NM I' E X. pose proof NM as (r & ER & ->).
  destruct (takeEntry_get _ _ _ _ _ (top ++ r) E) as [H|[(K' & _ & _ & s & H)|[(K' & H & _)|(t & K' & H & _)]]].
  - congruence.
  - exfalso. destruct (PL _ I') as [r' E']. rewrite (join_names _ _ _ E'), <- app_assoc in H. apply app_inv_head in H. subst r'.
    destruct s as [|x s].
    + rewrite app_nil_r in E'. assert (e' = e) by (apply (once_inj l); auto; congruence). congruence.
    + destruct (closed_dir l e' r (x :: s) CL I' E') as (e2 & I2 & E2 & K2); [discriminate|].
      assert (e2 = e) by (apply (once_inj l); auto; congruence). subst. destruct K2; congruence.
  - rewrite (same_path _ _ _ _ _ PL ON I I' NM H) in K'. congruence.
  - rewrite (same_path _ _ _ _ _ PL ON I I' NM H) in K'. congruence.
Qed.

Definition blank (v : option node) : Prop := v = None \/ exists t m, v = Some (NFile [] t m).

Lemma fetch_blank e h : blank (get h (join top (ePath e))) -> hasParent (join top (ePath e)) h = true ->
  fetch top give h e = Some (put (join top (ePath e)) (NFile (give (ePath e)) (eTime e) (eMode e)) h).
Proof. intros B P. unfold fetch. destruct B as [->|(t & m & ->)]; rewrite P; reflexivity. Qed.

Lemma dt_content p e : proper l ->
  (forall e' p', In e' l -> eKind e' = KFile -> names top e' p' ->
     blank (get f p') \/ exists n, get f p' = Some n /\ nSize n = eSize e' /\ second (nTime n) = second (eTime e')) ->
  In e l -> eKind e = KFile -> names top e p -> blank (get f p) -> differs (get f p) e ->
  get g p = Some (NFile (give (ePath e)) (eTime e) (eMode e)).
Proof.
  intros PR OK I K NM BL DF. pose proof PR as (PL & ON & CL & LF & TP). destruct dt_parts as (h & needs & TA & ->).
  rewrite rem_listed; [|exact PR|exists e; auto].
  assert (FS : forall e' p', In e' l -> eKind e' = KFile -> names top e' p' -> get h p' = get f p').
  { intros e' p' I' K' NM'. apply (takeAll_keep top p' (fun x => x = get f p') l f h needs); auto.
    intros e2 f1 g1 b I2 E2. exact (file_keep e' p' _ e2 f1 g1 b PR I' K' NM' I2 E2). }
  assert (ND : forall e' p', In e' l -> eKind e' = KFile -> names top e' p' ->
     (In e' needs -> differs (get f p') e') /\ (differs (get f p') e' -> In e' needs)).
  { intros e' p' I' K' NM'. pose proof NM' as (r & ER & EP). assert (J : p' = join top (ePath e')) by (rewrite (join_names _ _ _ ER); exact EP).
    destruct (takeAll_need top e' (get f p') l f h needs) as [A B]; rewrite <- ?J; auto.
    intros e2 f1 g1 b I2 E2. exact (file_keep e' p' _ e2 f1 g1 b PR I' K' NM' I2 E2). }
  assert (HP : forall e' p', In e' l -> eKind e' = KFile -> names top e' p' -> hasParent p' h = true).
  { intros e' p' I' K' (r & ER & ->). destruct r as [|n r _] using rev_ind.
    - exfalso. destruct TP as (e0 & I0 & E0 & K0). assert (e0 = e') by (apply (once_inj l); auto; rewrite E0, ER; reflexivity). subst. destruct K0; congruence.
    - exact (parent_dir e' r n h needs PR I' ER TA). }
  assert (BAD : existsb (fails top give h) needs = false).
  { apply not_true_iff_false. intros X. apply existsb_exists in X. destruct X as (e' & I' & X).
    destruct (needs_in _ _ _ _ _ TA _ I') as [IL K']. destruct (PL _ IL) as [r ER].
    assert (NM' : names top e' (top ++ r)) by (exists r; auto). unfold fails in X.
    rewrite fetch_blank in X; [discriminate| |]; rewrite (join_names _ _ _ ER).
    - rewrite (FS _ _ IL K' NM'). destruct (OK _ _ IL K' NM') as [B|(n & B & S & T)]; [exact B|].
      apply (ND _ _ IL K' NM') in I'. rewrite B in I'. cbn in I'. destruct I'; congruence.
    - exact (HP _ _ IL K' NM'). }
  rewrite fetchAll_unfold, BAD.
  pose (tg := NFile (give (ePath e)) (eTime e) (eMode e)). fold tg.
  assert (IN : In e needs) by (apply (ND _ _ I K NM); exact DF).
  assert (PJ : p = join top (ePath e)) by (destruct NM as (r & ER & ->); symmetry; apply join_names; exact ER).
  assert (SUB : forall e', In e' needs -> In e' l) by (intros e' I'; eapply needs_in; eauto).
  assert (Q : blank (get h p) \/ get h p = Some tg) by (left; rewrite (FS _ _ I K NM); exact BL).
  assert (HH := HP _ _ I K NM). clear TA BAD FS ND HP DT. revert h Q HH.
  assert (ST : forall e' h1, In e' needs -> get (fstep top give fin false h1 e') p = get h1 p \/ get (fstep top give fin false h1 e') p = Some tg).
  { intros e' h1 I'. destruct (fstep_get top give fin false h1 e' p) as [H|(H & _ & H')]; [now left|].
    right. rewrite (same_path _ _ _ _ _ PL ON I (SUB _ I') NM H) in H' |- *. exact H'. }
  induction needs as [|x needs IH]; intros h Q HH; [destruct IN|]. cbn [fold_left].
  assert (ST' : forall e' h1, In e' needs -> get h1 p = Some tg -> get (fstep top give fin false h1 e') p = Some tg).
  { intros e' h1 I' X. destruct (ST e' h1 (or_intror I')) as [H|H]; congruence. }
  destruct IN as [->|IN].
  - apply (fold_keep _ p (fun x => x = Some tg)); [intros e' h1 I'; apply ST'; exact I'|].
    destruct Q as [Q|Q].
    + unfold fstep. rewrite fetch_blank; rewrite <- PJ; auto. cbn [negb orb]. apply get_put_eq.
    + destruct (ST e h (or_introl eq_refl)) as [H|H]; congruence.
  - apply IH; auto.
    + intros e' I'. apply SUB. now right.
    + intros e' h1 I'. apply ST. now right.
    + destruct (ST x h (or_introl eq_refl)) as [->|H]; auto.
    + unfold hasParent in *. destruct (removelast p) as [|a q]; [reflexivity|].
      destruct (fstep_get top give fin false h x (a :: q)) as [->|(_ & [B|(t & m & B)] & _)]; [exact HH| |]; rewrite B in HH; discriminate.
Qed.

Lemma dt_dir e p r : proper l -> In e l -> ePath e = map Nm r -> p = top ++ r -> p <> [] -> (eKind e = KLeaf \/ eKind e = KMid) ->
  forall h needs, takeAll top f l = Some (h, needs) -> exists m, get h p = Some (NDir m).
Proof.
  intros (PL & ON & CL & LF & _) I E EP NE K h needs TA. subst p.
  assert (L : exists e2 s, In e2 l /\ eKind e2 = KLeaf /\ ePath e2 = map Nm (r ++ s)).
  { destruct K as [K|K]; [exists e, []; rewrite app_nil_r; auto|apply (LF e); auto]. }
  destruct L as (e2 & s & I2 & K2 & E2). apply (leaf_dirs e2 r s h needs I2 K2 E2); auto.
  intros e3 t I3 K3 H. assert (NM : names top e (top ++ r)) by (exists r; auto).
  rewrite (same_path _ _ _ _ _ PL ON I I3 NM H) in K3. destruct K; congruence.
Qed.

Lemma dir_fetched p h needs m : get h p = Some (NDir m) -> get (fetchAll top give fin h needs) p = Some (NDir m).
Proof.
  intros G. rewrite fetchAll_unfold. apply (fold_keep _ p (fun x => x = Some (NDir m))); [|exact G].
  intros e f1 I X. destruct (fstep_get top give fin (existsb (fails top give h) needs) f1 e p) as [H|(_ & [H|(t & m' & H)] & _)]; congruence.
Qed.

Lemma dt_mid p e : proper l -> In e l -> eKind e = KMid -> names top e p -> p <> [] -> get g p = Some (NDir (eMode e)).
Proof.
  intros PR I K NM NE. pose proof PR as (PL & ON & _). destruct dt_parts as (h & needs & TA & ->).
  rewrite rem_listed; [|exact PR|exists e; auto]. apply dir_fetched.
  pose proof NM as (r & ER & EP). destruct (dt_dir e p r PR I ER EP NE (or_intror K) h needs TA) as [m G].
  assert (Q : get h p = Some (NDir (eMode e)) \/ exists d t, get h p = Some (NFile d t (eMode e))).
  { assert (PJ : p = join top (ePath e)) by (rewrite (join_names _ _ _ ER); exact EP).
    assert (W : forall l', In e l' -> (forall e', In e' l' -> In e' l) -> forall f0 h needs, takeAll top f0 l' = Some (h, needs) ->
      get h p = Some (NDir (eMode e)) \/ exists d t, get h p = Some (NFile d t (eMode e))); [|apply (W l I (fun _ J => J) f h needs TA)].
    clear G DT TA. clear h needs. induction l' as [|x l' IH]; intros I' SUB f0 h needs TA; [destruct I'|].
    destruct (takeAll_cons _ _ _ _ _ _ TA) as (g1 & b & n2 & E1 & E2 & _). destruct I' as [->|I'].
    - apply (takeAll_keep top p (fun x => x = Some (NDir (eMode e)) \/ exists d t, x = Some (NFile d t (eMode e))) l' g1 h n2); auto.
      + intros e' f1 g2 b' I2 E' X. assert (S := SUB e' (or_intror I2)).
        destruct (takeEntry_get _ _ _ _ _ p E') as [->|[(_ & H & _)|[(_ & H & Y)|(t & K' & H & _)]]]; auto.
        * destruct X as [X|(d & t & X)]; congruence.
        * rewrite (same_path _ _ _ _ _ PL ON (SUB e (or_introl eq_refl)) S NM H) in Y.
          destruct Y as [(m' & _ & Y)|(d & t & m' & _ & Y)]; eauto.
        * rewrite (same_path _ _ _ _ _ PL ON (SUB e (or_introl eq_refl)) S NM H) in K'. congruence.
      + unfold takeEntry in E1. rewrite K in E1. unfold chmod in E1. rewrite <- PJ in E1.
        destruct (get f0 p) as [[m1|d t m1|]|]; cbn in E1; try discriminate; injection E1 as <- _; rewrite get_put_eq; eauto.
    - apply (IH I') with (f0 := g1) (needs := n2); auto. intros e' J. apply SUB. now right. }
  destruct Q as [Q|(d & t & Q)]; congruence.
Qed.

Lemma dt_leaf p e : proper l -> In e l -> eKind e = KLeaf -> names top e p -> p <> [] -> get f p = None -> get g p = Some (NDir 448).
Proof.
  intros PR I K NM NE G0. pose proof PR as (PL & ON & _). destruct dt_parts as (h & needs & TA & ->).
  rewrite rem_listed; [|exact PR|exists e; auto]. apply dir_fetched.
  pose proof NM as (r & ER & EP). destruct (dt_dir e p r PR I ER EP NE (or_introl K) h needs TA) as [m G].
  assert (Q : get h p = None \/ get h p = Some (NDir 448)).
  { apply (takeAll_keep top p (fun x => x = None \/ x = Some (NDir 448)) l f h needs); auto.
    intros e' f1 g1 b I' E X. destruct (takeEntry_get _ _ _ _ _ p E) as [->|[(_ & _ & H & _)|[(K' & H & _)|(t & K' & H & _)]]]; auto;
    rewrite (same_path _ _ _ _ _ PL ON I I' NM H) in K'; congruence. }
  destruct Q; congruence.
Qed.
End Sync.
