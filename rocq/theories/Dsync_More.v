(** The listing against the tree it lists. *)
From Coq Require Import List ZArith Bool Lia Arith Permutation.
Import ListNotations.
From Verif Require Import Dsync_Model Dsync_Spec Dsync_Proofs Dsync_Tree Dsync_Main.
Local Open Scope Z_scope.

Lemma at_in m kids n k r : NoDup (map fst kids) -> In (n, k) kids -> at_ (TDir m kids) (n :: r) = at_ k r.
Proof.
  cbn [at_]. induction kids as [|[n' k'] kids IH]; intros N I; [destruct I|]. cbn in N. inversion N; subst.
  destruct I as [I|I].
  - injection I as -> ->. rewrite Nat.eqb_refl. reflexivity.
  - destruct (Nat.eqb n' n) eqn:E; [|auto]. apply Nat.eqb_eq in E. subst. exfalso. apply H1. apply in_map_iff. exists (n, k). auto.
Qed.
Lemma at_out m kids n r t' : at_ (TDir m kids) (n :: r) = Some t' -> exists k, In (n, k) kids /\ at_ k r = Some t'.
Proof.
  cbn [at_]. induction kids as [|[n' k'] kids IH]; intros E; [discriminate|].
  destruct (Nat.eqb n' n) eqn:Q.
  - apply Nat.eqb_eq in Q. subst. exists k'. split; [now left|exact E].
  - destruct (IH E) as (k & A & B). exists k. split; [now right|exact B].
Qed.

Lemma own_describes r m kids : describes (own r m kids) (TDir m kids).
Proof.
  cbn. split; [reflexivity|]. destruct (existsb (fun k => isDir (snd k)) kids) eqn:X.
  - left. split; [reflexivity|]. apply existsb_exists in X. destruct X as ([n [| |m' ks]] & I & X); try discriminate. eauto.
  - right. split; [reflexivity|]. intros n m' ks I. apply not_true_iff_false in X. apply X. apply existsb_exists. exists (n, TDir m' ks). auto.
Qed.

Lemma visit_sound : forall t r e, distinct t -> In e (visit (map Nm r) t) ->
  exists s t', ePath e = map Nm (r ++ s) /\ at_ t s = Some t' /\ describes e t'.
Proof.
  induction t as [d t m|g t|m kids IH] using tree_ind'; intros r e D I.
  1,2: destruct I as [<-|[]]; exists []; rewrite app_nil_r; eexists; split; [reflexivity|]; split; [reflexivity|]; cbn; auto.
  apply distinct_kids in D. destruct D as [N D]. apply in_dir in I. destruct I as [(n & k & I & J)| ->].
  - rewrite Forall_forall in IH, D. destruct (IH _ I (r ++ [n]) e (D _ I) J) as (s & t' & A & B & C).
    exists (n :: s), t'. split; [rewrite A, <- app_assoc; reflexivity|]. split; [|exact C]. rewrite (at_in m kids n k s N I). exact B.
  - exists [], (TDir m kids). rewrite app_nil_r. split; [reflexivity|]. split; [reflexivity|]. apply own_describes.
Qed.

Lemma visit_complete : forall t r s t', at_ t s = Some t' ->
  exists e, In e (visit (map Nm r) t) /\ ePath e = map Nm (r ++ s) /\ describes e t'.
Proof.
  assert (X : forall t s t', (forall m kids, t <> TDir m kids) -> at_ t s = Some t' -> s = [] /\ t' = t).
  { intros t [|n s] t' N E; [destruct t; cbn in E; injection E as <-; auto|]. destruct t; try discriminate. destruct (N mode kids eq_refl). }
  induction t as [d t m|g t|m kids IH] using tree_ind'; intros r s t' E.
  1,2: apply X in E; [|discriminate]; destruct E as [-> ->]; eexists; split; [left; reflexivity|]; rewrite app_nil_r; cbn; auto.
  destruct s as [|n s].
  - cbn in E. injection E as <-. exists (own r m kids). split; [apply in_dir; now right|]. rewrite app_nil_r. split; [reflexivity|apply own_describes].
  - destruct (at_out _ _ _ _ _ E) as (k & I & E'). rewrite Forall_forall in IH. destruct (IH _ I (r ++ [n]) s t' E') as (e & A & B & C).
    exists e. split; [apply in_dir; left; eauto|]. split; [|exact C]. rewrite B, <- app_assoc. reflexivity.
Qed.

Lemma sent_all msize empty max t : flat_map pPack (sendListing msize empty max t) = listing t.
Proof. unfold sendListing. rewrite packs_all. reflexivity. Qed.

Lemma listing_at t r t' : at_ t r = Some t' -> exists e, In e (listing t) /\ ePath e = map Nm r /\ describes e t'.
Proof. intros E. destruct (visit_complete t [] r t' E) as (e & A & B). exists e. split; [apply listing_in; exact A|exact B]. Qed.
Lemma listing_is t e : distinct t -> In e (listing t) -> exists r t', ePath e = map Nm r /\ at_ t r = Some t' /\ describes e t'.
Proof. intros D I. apply listing_in in I. exact (visit_sound t [] e D I). Qed.

Lemma listed_at t top r : distinct t -> (listed top (listing t) (top ++ r) <-> at_ t r <> None).
Proof.
  intros D. split.
  - intros (e & I & r' & E & Q). apply app_inv_head in Q. subst r'. destruct (listing_is t e D I) as (r' & t' & E' & A & _).
    rewrite E in E'. apply map_Nm_inj in E'. subst r'. congruence.
  - intros N. destruct (at_ t r) as [t'|] eqn:A; [|congruence]. destruct (listing_at t r t' A) as (e & I & E & _).
    exists e. split; [exact I|]. exists r. auto.
Qed.
