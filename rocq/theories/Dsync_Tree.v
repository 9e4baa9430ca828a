(** What the listing of a tree looks like, and how it is packed. *)
From Coq Require Import List ZArith Bool Lia Arith Permutation.
Import ListNotations.
From Verif Require Import Dsync_Model Dsync_Spec Dsync_Proofs.
Local Open Scope Z_scope.

Lemma tree_ind' (P : tree -> Prop) :
  (forall d t m, P (TFile d t m)) -> (forall g t, P (TLink g t)) ->
  (forall m kids, Forall (fun k => P (snd k)) kids -> P (TDir m kids)) -> forall t, P t.
Proof.
  intros HF HL HD. fix IH 1. intros [d t m|g t|m kids]; [apply HF|apply HL|]. apply HD.
  induction kids as [|k kids IHk]; constructor; [apply IH|exact IHk].
Qed.

Lemma distinct_kids m kids : distinct (TDir m kids) -> NoDup (map fst kids) /\ Forall (fun k => distinct (snd k)) kids.
Proof.
  intros [N A]. split; [exact N|]. clear N. induction kids as [|[n k] kids IH]; constructor; [apply A|apply IH; apply A].
Qed.

Lemma snoc_Nm r n : map Nm r ++ [Nm n] = map Nm (r ++ [n]).
Proof. rewrite map_app. reflexivity. Qed.

Lemma in_kids r kids e : In e (flat_map (fun k => visit (map Nm r ++ [Nm (fst k)]) (snd k)) kids) <->
  exists n k, In (n, k) kids /\ In e (visit (map Nm (r ++ [n])) k).
Proof.
  rewrite in_flat_map. split.
  - intros ([n k] & I & J). cbn in J. rewrite snoc_Nm in J. eauto.
  - intros (n & k & I & J). exists (n, k). split; [exact I|]. cbn. rewrite snoc_Nm. exact J.
Qed.

Definition own (r : path) (m : Z) (kids : list (nat * tree)) : entry :=
  Ent (map Nm r) (if existsb (fun k => isDir (snd k)) kids then KMid else KLeaf) 0 0 m.

Lemma in_dir r m kids e : In e (visit (map Nm r) (TDir m kids)) <->
  (exists n k, In (n, k) kids /\ In e (visit (map Nm (r ++ [n])) k)) \/ e = own r m kids.
Proof.
  cbn [visit]. rewrite in_app_iff, in_kids. unfold own. cbn. intuition.
Qed.

Lemma visit_path : forall t r e, In e (visit (map Nm r) t) -> exists s, ePath e = map Nm (r ++ s).
Proof.
  induction t as [d t m|g t|m kids IH] using tree_ind'; intros r e I.
  1,2: destruct I as [<-|[]]; exists []; rewrite app_nil_r; reflexivity.
  apply in_dir in I. destruct I as [(n & k & I & J)| ->].
  - rewrite Forall_forall in IH. destruct (IH _ I _ _ J) as [s E]. exists (n :: s). rewrite E, <- app_assoc. reflexivity.
  - exists []. rewrite app_nil_r. reflexivity.
Qed.

Lemma visit_closed : forall t r e s n, In e (visit (map Nm r) t) -> ePath e = map Nm (r ++ s ++ [n]) ->
  exists e', In e' (visit (map Nm r) t) /\ ePath e' = map Nm (r ++ s) /\ (eKind e' = KLeaf \/ eKind e' = KMid).
Proof.
  assert (X : forall r s (n : nat), map Nm r = map Nm (r ++ s ++ [n]) -> False).
  { intros r s n E. apply (f_equal (@length seg)) in E. rewrite !map_length, !app_length in E. cbn in E. lia. }
  induction t as [d t m|g t|m kids IH] using tree_ind'; intros r e s n I E.
  1,2: destruct I as [<-|[]]; cbn in E; destruct (X _ _ _ E).
  apply in_dir in I. destruct I as [(k & c & I & J)| ->]; [|cbn in E; destruct (X _ _ _ E)].
  destruct (visit_path _ _ _ J) as [s' E']. rewrite E in E'. apply map_Nm_inj in E'. rewrite <- app_assoc in E'. apply app_inv_head in E'.
  cbn in E'. destruct s as [|k' s].
  - exists (own r m kids). split; [apply in_dir; now right|]. split; [rewrite app_nil_r; reflexivity|].
    cbn. destruct (existsb _ kids); auto.
  - cbn in E'. injection E' as -> E'. rewrite Forall_forall in IH.
    destruct (IH _ I (r ++ [k]) e s n J) as (e' & A & B & C).
    { rewrite E, <- !app_assoc. reflexivity. }
    exists e'. split; [apply in_dir; left; eauto|]. split; [|exact C]. rewrite B, <- app_assoc. reflexivity.
Qed.

Lemma dir_leaf : forall t r, isDir t = true -> exists e s, In e (visit (map Nm r) t) /\ eKind e = KLeaf /\ ePath e = map Nm (r ++ s).
Proof.
  induction t as [d t m|g t|m kids IH] using tree_ind'; intros r D; try discriminate.
  destruct (existsb (fun k => isDir (snd k)) kids) eqn:X.
  - apply existsb_exists in X. destruct X as ([n k] & I & X). rewrite Forall_forall in IH.
    destruct (IH _ I (r ++ [n]) X) as (e & s & A & B & C). exists e, (n :: s).
    split; [apply in_dir; left; eauto|]. split; [exact B|]. rewrite C, <- app_assoc. reflexivity.
  - exists (own r m kids), []. split; [apply in_dir; now right|]. unfold own. rewrite X, app_nil_r. auto.
Qed.

Lemma visit_leafed : forall t r e s, In e (visit (map Nm r) t) -> ePath e = map Nm (r ++ s) -> eKind e = KMid ->
  exists e' s', In e' (visit (map Nm r) t) /\ eKind e' = KLeaf /\ ePath e' = map Nm ((r ++ s) ++ s').
Proof.
  induction t as [d t m|g t|m kids IH] using tree_ind'; intros r e s I E K.
  1,2: destruct I as [<-|[]]; discriminate.
  pose proof I as I0. apply in_dir in I. destruct I as [(n & k & I & J)| ->].
  - destruct (visit_path _ _ _ J) as [s' E']. rewrite E in E'. apply map_Nm_inj in E'. rewrite <- app_assoc in E'. apply app_inv_head in E'.
    subst s. rewrite Forall_forall in IH. destruct (IH _ I (r ++ [n]) e s' J) as (e' & s2 & A & B & C).
    + rewrite E, <- app_assoc. reflexivity.
    + exact K.
    + exists e', s2. split; [apply in_dir; left; eauto|]. split; [exact B|]. rewrite C. f_equal. rewrite <- !app_assoc. reflexivity.
  - cbn [own ePath] in E. apply map_Nm_inj in E. rewrite <- (app_nil_r r) in E at 1. apply app_inv_head in E. subst s.
    rewrite app_nil_r. apply (dir_leaf (TDir m kids)). reflexivity.
Qed.

Lemma NoDup_app' {A} (l1 l2 : list A) : NoDup l1 -> NoDup l2 -> (forall x, In x l1 -> ~ In x l2) -> NoDup (l1 ++ l2).
Proof.
  intros N1 N2 D. induction N1 as [|x l1 X N1 IH]; [exact N2|]. cbn. constructor.
  - rewrite in_app_iff. intros [I|I]; [contradiction|]. apply (D x); [now left|exact I].
  - apply IH. intros y I. apply D. now right.
Qed.

Lemma visit_once : forall t r, distinct t -> NoDup (map ePath (visit (map Nm r) t)).
Proof.
  induction t as [d t m|g t|m kids IH] using tree_ind'; intros r D.
  1,2: cbn; constructor; [intros []|constructor].
  apply distinct_kids in D. destruct D as [N D]. cbn [visit]. rewrite map_app. apply NoDup_app'.
  - induction kids as [|[n k] kids IHk]; [constructor|]. cbn [flat_map]. rewrite map_app. cbn [fst snd].
    inversion N; subst. inversion D; subst. inversion IH; subst. apply NoDup_app'.
    + rewrite snoc_Nm. cbn [snd] in *. auto.
    + auto.
    + intros x I J. apply in_map_iff in I. destruct I as (e & <- & I). rewrite snoc_Nm in I. destruct (visit_path _ _ _ I) as [s E].
      apply in_map_iff in J. destruct J as (e' & E' & J). apply in_kids in J. destruct J as (n' & k' & J & J').
      destruct (visit_path _ _ _ J') as [s' E2]. rewrite E', E in E2. apply map_Nm_inj in E2. rewrite <- !app_assoc in E2.
      apply app_inv_head in E2. cbn in E2. injection E2 as -> _. apply H1. apply in_map_iff. exists (n', k'). auto.
  - cbn. constructor; [intros []|constructor].
  - intros x I [J|[]]. cbn in J. subst x. apply in_map_iff in I. destruct I as (e & E & I). apply in_kids in I.
    destruct I as (n & k & _ & I). destruct (visit_path _ _ _ I) as [s E']. rewrite E in E'.
    apply (f_equal (@length seg)) in E'. rewrite !map_length, !app_length in E'. cbn in E'. lia.
Qed.

Lemma parts l : Permutation (filter isLeaf l ++ filter (fun e => negb (isLeaf e) && negb (isMid e)) l ++ filter isMid l) l.
Proof.
  induction l as [|e l IH]; [constructor|]. destruct e as [p k sz t m]. cbn [filter isLeaf isMid eKind negb andb].
  destruct k; cbn [negb andb filter app].
  - constructor. exact IH.
  - rewrite app_assoc. symmetry. apply Permutation_cons_app. symmetry. rewrite <- app_assoc. exact IH.
  - symmetry. apply Permutation_cons_app. symmetry. exact IH.
  - symmetry. apply Permutation_cons_app. symmetry. exact IH.
Qed.

Lemma listing_perm t : Permutation (listing t) (visit [] t).
Proof. apply parts. Qed.

Lemma listing_in t e : In e (listing t) <-> In e (visit (map Nm []) t).
Proof. split; intros I; [eapply Permutation_in; [apply listing_perm|exact I]|]. eapply Permutation_in; [symmetry; apply listing_perm|exact I]. Qed.

Lemma listing_proper t : isDir t = true -> distinct t -> proper (listing t).
Proof.
  intros ID D. split; [|split; [|split; [|split]]].
  - intros e I. apply listing_in in I. destruct (visit_path _ _ _ I) as [s E]. exists s. exact E.
  - unfold once. eapply Permutation_NoDup; [apply Permutation_map; symmetry; apply listing_perm|]. exact (visit_once t [] D).
  - intros e r n I E. apply listing_in in I. destruct (visit_closed t [] e r n I E) as (e' & A & B & C).
    exists e'. split; [apply listing_in; exact A|]. auto.
  - intros e r I E K. apply listing_in in I. destruct (visit_leafed t [] e r I E K) as (e' & s & A & B & C).
    exists e', s. split; [apply listing_in; exact A|]. auto.
  - destruct t as [| |m kids]; try discriminate. exists (own [] m kids). split; [apply listing_in, in_dir; now right|].
    split; [reflexivity|]. cbn. destruct (existsb _ kids); auto.
Qed.

(* The leaf directories come before everything else. *)
Lemma listing_split t : exists a b, listing t = a ++ b /\ (forall e, In e a -> eKind e = KLeaf) /\ (forall e, In e b -> eKind e <> KLeaf).
Proof.
  eexists. eexists. split; [reflexivity|]. split.
  - intros e I. apply filter_In in I. destruct I as [_ I]. unfold isLeaf in I. destruct (eKind e); congruence.
  - intros e I. apply in_app_iff in I. destruct I as [I|I]; apply filter_In in I; destruct I as [_ I]; unfold isLeaf, isMid in I; destruct (eKind e); cbn in I; congruence.
Qed.

(** ** Packs *)
Section Pack.
Variable msize : entry -> Z.
Variable empty max : Z.
Hypothesis msize_pos : forall e, 0 <= msize e.
Hypothesis empty_pos : 0 <= empty.

Lemma packSize_app l e : packSize msize empty (l ++ [e]) = packSize msize empty l + msize e.
Proof. unfold packSize. induction l as [|x l IH]; cbn in *; lia. Qed.
Lemma packSize_pos l : 0 <= packSize msize empty l.
Proof. unfold packSize. induction l as [|x l IH]; cbn in *; [lia|]. pose proof (msize_pos x). lia. Qed.

Lemma packs_all l : forall have cur, flat_map pPack (packs msize empty max have cur l) = pPack cur ++ l.
Proof.
  induction l as [|e l IH]; intros have cur; cbn; [reflexivity|].
  destruct (have + msize e <? max); cbn; rewrite IH; cbn; [rewrite <- app_assoc|]; reflexivity.
Qed.
Lemma packs_last l : forall have cur, pLast cur = false -> exists a z, packs msize empty max have cur l = a ++ [z] /\
  pLast z = true /\ forall x, In x a -> pLast x = false.
Proof.
  induction l as [|e l IH]; intros have cur C; cbn.
  - exists [], (Pof (pPack cur) true (pBytes cur)). repeat split. intros x [].
  - destruct (have + msize e <? max); [apply IH; reflexivity|].
    destruct (IH (packSize msize empty [e]) (Pof [e] false 0) eq_refl) as (a & z & A & B & D). rewrite A.
    exists (cur :: a), z. repeat split; [exact B|]. intros x [<-|I]; auto.
Qed.
Lemma packs_size l : forall have cur, packSize msize empty (pPack cur) <= have ->
  ((length (pPack cur) <= 1)%nat \/ packSize msize empty (pPack cur) < max) ->
  forall x, In x (packs msize empty max have cur l) -> (length (pPack x) <= 1)%nat \/ packSize msize empty (pPack x) < max.
Proof.
  induction l as [|e l IH]; intros have cur H C x; cbn.
  - intros [<-|[]]. exact C.
  - destruct (have + msize e <? max) eqn:E.
    + apply Z.ltb_lt in E. assert (S := packSize_app (pPack cur) e). apply IH; cbn [pPack].
      * pose proof (packSize_pos (pPack cur)). pose proof (msize_pos e). lia.
      * right. lia.
    + intros [<-|I]; [exact C|]. revert I. apply IH; cbn; [lia|]. left. lia.
Qed.
End Pack.
