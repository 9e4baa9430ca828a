(** C21: span arithmetic is interval arithmetic. *)
From Coq Require Import ZArith Bool Lia.
From Verif Require Import Span_Model Span_Spec.
Local Open Scope Z_scope.

Ltac crush := repeat match goal with
  | H : context [?x =? ?y] |- _ => destruct (Z.eqb_spec x y); cbn in H
  | H : context [?x <? ?y] |- _ => destruct (Z.ltb_spec x y); cbn in H
  | H : context [?x <=? ?y] |- _ => destruct (Z.leb_spec x y); cbn in H
  | |- context [?x =? ?y] => destruct (Z.eqb_spec x y); cbn
  | |- context [?x <? ?y] => destruct (Z.ltb_spec x y); cbn
  | |- context [?x <=? ?y] => destruct (Z.leb_spec x y); cbn
  end.

(** intersect returns exactly the common integers and reports empty exactly when
    there are none, for every two spans that are not inverted (points included). *)
Theorem C21_intersect_exact : forall a b r e, wf a -> wf b -> intersect a b = (r, e) ->
  (e = true <-> forall x, ~ (inSpan x a /\ inSpan x b)) /\
  (e = false -> forall x, inSpan x r <-> inSpan x a /\ inSpan x b).
Proof.
  intros [a0 a1] [b0 b1] [r0 r1] e Ha Hb H. unfold wf, inSpan in *. cbn in *.
  unfold intersect, overlaps, isSuperSetOf in H. cbn in H.
  assert (X : e = true \/ e = false) by (destruct e; auto).
  crush; injection H as <- <- <-; (split; [split; intros G; [intros x; lia|]|intros G x; lia]);
    try reflexivity; exfalso;
    solve [ lia | apply (G b0); lia | apply (G a0); lia ].
Qed.
Print Assumptions C21_intersect_exact.

(** overlaps says whether there is a common integer, for non-empty spans; a
    point (beg = endx) counts as the integer at its position, and two points
    overlap when equal. *)
Definition closure (a : span) (x : Z) : Prop := inSpan x a \/ (beg a = endx a /\ x = beg a).
Theorem C21_overlaps_exact : forall a b, wf a -> wf b ->
  overlaps a b = true <-> exists x, closure a x /\ closure b x.
Proof.
  intros [a0 a1] [b0 b1] Ha Hb. unfold wf, closure, inSpan, overlaps in *. cbn in *.
  split.
  - intros H. destruct (Z.max_spec a0 b0) as [[? E]|[? E]]; exists (Z.max a0 b0); rewrite E; crush; try discriminate; lia.
  - intros (x & Hx). crush; try reflexivity; lia.
Qed.
Print Assumptions C21_overlaps_exact.
Corollary C21_overlaps_nonempty : forall a b, nonempty a -> nonempty b ->
  overlaps a b = true <-> exists x, inSpan x a /\ inSpan x b.
Proof.
  intros a b Ha Hb. unfold nonempty in *. rewrite C21_overlaps_exact by (unfold wf; lia).
  unfold closure. split; intros (x & H); exists x; [|tauto]. destruct H as [[?|[? ?]] [?|[? ?]]]; try lia; auto.
Qed.
Print Assumptions C21_overlaps_nonempty.

Theorem C21_contains_exact : forall a x, contains a x = true <-> inSpan x a.
Proof. intros [a0 a1] x. unfold contains, inSpan. cbn. crush; split; intros; try discriminate; try reflexivity; lia. Qed.
Print Assumptions C21_contains_exact.

(** isSuperSetOf is set inclusion when the second span is non-empty; in general
    it implies it. *)
Theorem C21_superset_exact : forall a b, nonempty b ->
  isSuperSetOf a b = true <-> forall x, inSpan x b -> inSpan x a.
Proof.
  intros [a0 a1] [b0 b1] Hb. unfold nonempty, isSuperSetOf, inSpan in *. cbn in *.
  split.
  - intros H x Hx. crush; try discriminate. lia.
  - intros H. pose proof (H b0 ltac:(lia)). pose proof (H (b1 - 1) ltac:(lia)). crush; try reflexivity; lia.
Qed.
Print Assumptions C21_superset_exact.
Theorem C21_superset_sound : forall a b, isSuperSetOf a b = true -> forall x, inSpan x b -> inSpan x a.
Proof. intros [a0 a1] [b0 b1] H x Hx. unfold isSuperSetOf, inSpan in *. cbn in *. crush; try discriminate; lia. Qed.
Print Assumptions C21_superset_sound.
Theorem C21_equal_exact : forall a b, equal a b = true <-> a = b.
Proof.
  intros [a0 a1] [b0 b1]. unfold equal. cbn. crush; split; intros H; try discriminate; try congruence.
  all: injection H as -> ->; lia.
Qed.
Print Assumptions C21_equal_exact.
Theorem C21_order_exact : forall a b, nonempty a -> nonempty b ->
  (before a b = true <-> forall x y, inSpan x a -> inSpan y b -> x < y) /\
  (after a b = before b a).
Proof.
  intros [a0 a1] [b0 b1] Ha Hb. unfold nonempty, before, after, inSpan in *. cbn in *. split; [|auto].
  split; [intros H x y; crush; try discriminate; lia|].
  intros H. specialize (H (a1 - 1) b0 ltac:(lia) ltac:(lia)). crush; try reflexivity; lia.
Qed.
Print Assumptions C21_order_exact.
Theorem C21_constructors : forall p q x,
  (inSpan x (spanBegxEndi p q) <-> p < x <= q) /\ (inSpan x (spanBegiEndx p q) <-> p <= x < q).
Proof. intros. unfold inSpan, spanBegxEndi, spanBegiEndx. cbn. lia. Qed.
Print Assumptions C21_constructors.

Example C21_nonvacuous : let a := spanBegxEndi 2 9 in let b := spanBegiEndx 7 20 in
  wf a /\ wf b /\ nonempty a /\ intersect a b = (mkSpan 7 10, false) /\
  intersect a (mkSpan 10 12) = (mkSpan 0 0, true) /\ overlaps a (mkSpan 5 5) = true /\
  intersect a (mkSpan 5 5) = (mkSpan 0 0, true) /\ isSuperSetOf a (mkSpan 4 8) = true.
Proof. cbn. unfold wf, nonempty. cbn. repeat split; lia. Qed.

(** An inverted span is the empty set, but the code does not treat it so. *)
Theorem C21_inverted_refuted : exists a b x, ~ wf a /\ wf b /\
  (forall y, ~ inSpan y a) /\ overlaps a b = true /\ exists r, intersect a b = (r, false) /\ inSpan x b.
Proof.
  exists (mkSpan 5 3), (mkSpan 1 9), 4. unfold wf, inSpan. cbn. repeat split; try lia.
  exists (mkSpan 5 3). repeat split; lia.
Qed.
Print Assumptions C21_inverted_refuted.
(** A point outside a span is an empty set, hence a subset, but is reported as not contained. *)
Theorem C21_superset_of_point_refuted : exists a b, wf a /\ wf b /\
  (forall x, inSpan x b -> inSpan x a) /\ isSuperSetOf a b = false.
Proof. exists (mkSpan 1 3), (mkSpan 7 7). unfold wf, inSpan. cbn. repeat split; lia. Qed.
Print Assumptions C21_superset_of_point_refuted.
