(* A check that a given history is not linearizable: try every order. *)

From Coq Require Import List Arith Bool Lia.
Import ListNotations.
From Verif Require Import Herm_Spec.

Fixpoint perms (fuel : nat) (pool : list nat) : list (list nat) :=
  match fuel with
  | 0 => [[]]
  | S f => [] :: flat_map (fun x => map (cons x) (perms f (remove Nat.eq_dec x pool))) pool
  end.

Lemma perms_in fuel : forall pool l, NoDup l -> incl l pool -> length l <= fuel -> In l (perms fuel pool).
Proof.
  induction fuel as [|f IH]; intros pool [|x l] ND IN L; cbn in *; auto; try lia.
  right. inversion ND as [|? ? NX ND']; subst. apply in_flat_map. exists x. split; [apply IN; cbn; auto|].
  apply in_map. apply IH; auto; [|lia].
  intros y Y. apply in_in_remove; [intros ->; auto|]. apply IN. cbn; auto.
Qed.

Definition oeqb (a b : option nat) : bool :=
  match a, b with None, None => true | Some x, Some y => x =? y | _, _ => false end.
Lemma oeqb_refl a : oeqb a a = true.
Proof. destruct a; cbn; auto. apply Nat.eqb_refl. Qed.

(* the values the register may hold after operation i *)
Definition nexts (h : list hev) (cur : option nat) (i : nat) : list (option nat) :=
  flat_map (fun e => match e with HInv j _ (OpW v) => if j =? i then [v] else [] | _ => [] end) h ++
  (if existsb (fun e => match e with HInv j _ OpR => j =? i | _ => false end) h &&
      existsb (fun e => match e with HRes j (HOkR v) => (j =? i) && oeqb v cur | _ => false end) h
   then [cur] else []).

Lemma nexts_ok h cur i nxt : regstep h cur i nxt -> In nxt (nexts h cur i).
Proof.
  unfold nexts. intros [(n & v & H & ->)|(n & H & H' & ->)]; apply in_or_app.
  - left. apply in_flat_map. eexists. split; [exact H|]. cbn. rewrite Nat.eqb_refl. cbn; auto.
  - right. replace (existsb _ h && existsb _ h) with true; [cbn; auto|]. symmetry. apply andb_true_iff. split; apply existsb_exists.
    + eexists. split; [exact H|]. apply Nat.eqb_refl.
    + eexists. split; [exact H'|]. cbn. now rewrite Nat.eqb_refl, oeqb_refl.
Qed.

Fixpoint legalb (h : list hev) (cur : option nat) (l : list nat) : bool :=
  match l with
  | [] => true
  | i :: l' => existsb (fun nxt => legalb h nxt l') (nexts h cur i)
  end.

Lemma legalb_ok h l : forall cur, legal h cur l -> legalb h cur l = true.
Proof.
  induction l as [|i l IH]; cbn; auto. intros cur (nxt & A & B). apply existsb_exists. exists nxt.
  split; auto. now apply nexts_ok.
Qed.

Fixpoint beforeb (l : list nat) (a b : nat) : bool :=
  match l with
  | [] => false
  | x :: l' => ((x =? a) && existsb (Nat.eqb b) l') || beforeb l' a b
  end.
Lemma beforeb_ok l a b : before l a b -> beforeb l a b = true.
Proof.
  intros (l1 & l2 & l3 & ->). induction l1 as [|x l1 IH]; cbn.
  - rewrite Nat.eqb_refl. cbn. replace (existsb _ _) with true; auto. symmetry. apply existsb_exists.
    exists b. split; [apply in_or_app; right; left; auto|apply Nat.eqb_refl].
  - rewrite IH. apply orb_true_r.
Qed.

Fixpoint invIn (h : list hev) (b : nat) : bool :=
  match h with [] => false | HInv j _ _ :: h' => (j =? b) || invIn h' b | _ :: h' => invIn h' b end.
Lemma invIn_ok h b : invIn h b = true -> exists h1 h2 n o, h = h1 ++ HInv b n o :: h2.
Proof.
  induction h as [|[j n o|j a] h IH]; cbn; try discriminate.
  - destruct (Nat.eqb_spec j b) as [->|NE]; [intros _; exists [], h, n, o; auto|].
    intros H. destruct (IH H) as (h1 & h2 & n' & o' & ->). exists (HInv j n o :: h1), h2, n', o'. auto.
  - intros H. destruct (IH H) as (h1 & h2 & n' & o' & ->). exists (HRes j a :: h1), h2, n', o'. auto.
Qed.
Fixpoint precb (h : list hev) (a b : nat) : bool :=
  match h with
  | [] => false
  | HRes j r :: h' => ((j =? a) && match r with HErr => false | _ => true end && invIn h' b) || precb h' a b
  | _ :: h' => precb h' a b
  end.
Lemma precb_ok h a b : precb h a b = true -> precedes h a b.
Proof.
  induction h as [|[j n o|j r] h IH]; cbn; try discriminate.
  - intros H. destruct (IH H) as (h1 & h2 & h3 & r & n' & o' & -> & X). exists (HInv j n o :: h1), h2, h3, r, n', o'. auto.
  - intros H. apply orb_true_iff in H. destruct H as [H|H].
    + apply andb_true_iff in H. destruct H as [H H3]. apply andb_true_iff in H. destruct H as [H1 H2].
      apply Nat.eqb_eq in H1. subst j. destruct (invIn_ok _ _ H3) as (h1 & h2 & n & o & ->).
      exists [], h1, h2, r, n, o. split; auto. destruct r; discriminate.
    + destruct (IH H) as (h1 & h2 & h3 & r' & n' & o' & -> & X). exists (HRes j r :: h1), h2, h3, r', n', o'. auto.
Qed.

Definition ids (h : list hev) : list nat :=
  flat_map (fun e => match e with HInv j _ _ => [j] | _ => [] end) h.
Definition oks (h : list hev) : list nat :=
  flat_map (fun e => match e with HRes j HErr => [] | HRes j _ => [j] | _ => [] end) h.

Definition goodb (h : list hev) (l : list nat) : bool :=
  forallb (fun i => existsb (Nat.eqb i) l) (oks h) && legalb h None l &&
  forallb (fun a => forallb (fun b => negb (precb h a b) || beforeb l a b) l) l.

Theorem nonlin h : forallb (fun l => negb (goodb h l)) (perms (length (ids h)) (ids h)) = true -> ~ linearizable h.
Proof.
  intros C (l & ND & A1 & A2 & _ & A4 & A5).
  assert (INC : incl l (ids h)).
  { intros i H. destruct (A1 i H) as (n & o & X). apply in_flat_map. eexists. split; [exact X|cbn; auto]. }
  assert (P : In l (perms (length (ids h)) (ids h))) by (apply perms_in; auto; now apply NoDup_incl_length).
  rewrite forallb_forall in C. apply C in P. apply negb_true_iff in P.
  enough (X : goodb h l = true) by congruence.
  unfold goodb. rewrite !andb_true_iff. repeat split.
  - apply forallb_forall. intros i H. apply existsb_exists. exists i. split; [|apply Nat.eqb_refl]. apply A2.
    apply in_flat_map in H. destruct H as (e & E & H). destruct e as [|j a]; cbn in H; try contradiction.
    destruct a as [v| |]; cbn in H; try contradiction; destruct H as [<-|[]]; eexists; (split; [exact E|discriminate]).
  - now apply legalb_ok.
  - apply forallb_forall. intros a HA. apply forallb_forall. intros b HB.
    destruct (precb h a b) eqn:E; auto. cbn. apply beforeb_ok. apply A4; auto. now apply precb_ok.
Qed.
