(* Timestamps are totally ordered when the hash does not collide. *)

From Coq Require Import List Arith Bool Lia.
Import ListNotations.
From Verif Require Import Herm_Spec Herm_Model.

(* No two coordinators have the same hash under the same version. *)
Definition hashInj (c : cfg) : Prop :=
  forall v a b, cHash c v a = cHash c v b -> a = b.

Lemma bc_refl a : bytesCompare a a = Eq.
Proof. induction a; cbn; auto. rewrite Nat.compare_refl; auto. Qed.

Lemma bc_eq a : forall b, bytesCompare a b = Eq -> a = b.
Proof.
  induction a as [|x a IH]; intros [|y b]; cbn; try discriminate; auto.
  destruct (Nat.compare_spec x y); try discriminate. intros H'; f_equal; auto.
Qed.

Lemma bc_opp a : forall b, bytesCompare b a = CompOpp (bytesCompare a b).
Proof.
  induction a as [|x a IH]; intros [|y b]; cbn; auto.
  rewrite (Nat.compare_antisym x y).
  destruct (Nat.compare x y); cbn; auto.
Qed.

Lemma bc_trans a : forall b d, bytesCompare a b = Lt -> bytesCompare b d = Lt -> bytesCompare a d = Lt.
Proof.
  induction a as [|x a IH]; intros [|y b] [|z d]; cbn; try discriminate; auto.
  destruct (Nat.compare_spec x y); destruct (Nat.compare_spec y z); try discriminate; intros A B; subst.
  - rewrite Nat.compare_refl. eauto.
  - destruct (Nat.compare_spec y z); auto; lia.
  - destruct (Nat.compare_spec x z); auto; lia.
  - destruct (Nat.compare_spec x z); auto; lia.
Qed.

Section O.
Variable c : cfg.
Hypothesis inj : hashInj c.

Definition tlt (a b : ts) : Prop := tsCompare c a b = Lt.

Lemma tc_refl a : tsCompare c a a = Eq.
Proof. unfold tsCompare. rewrite Nat.ltb_irrefl, Nat.eqb_refl; auto. Qed.

Lemma tc_eq a b : tsCompare c a b = Eq -> a = b.
Proof.
  unfold tsCompare. destruct a as [v x], b as [w y]; cbn [tver tcid].
  destruct (Nat.ltb_spec v w); try discriminate.
  destruct (Nat.ltb_spec w v); try discriminate.
  destruct (Nat.eqb_spec x y); [intros _; f_equal; lia|].
  intros H'. destruct (bytesCompare (cHash c v x) (cHash c v y)); discriminate H'.
Qed.

Lemma tc_opp a b : tsCompare c b a = CompOpp (tsCompare c a b).
Proof.
  unfold tsCompare. destruct a as [v x], b as [w y]; cbn [tver tcid].
  destruct (Nat.ltb_spec v w); destruct (Nat.ltb_spec w v); try lia; cbn; auto.
  assert (v = w) by lia; subst.
  rewrite (Nat.eqb_sym y x). destruct (Nat.eqb_spec x y) as [E|NE]; auto.
  rewrite (bc_opp (cHash c w x) (cHash c w y)).
  destruct (bytesCompare (cHash c w x) (cHash c w y)) eqn:B; cbn; auto.
  exfalso; apply NE. apply (inj w). now apply bc_eq.
Qed.

Lemma tlt_trans a b d : tlt a b -> tlt b d -> tlt a d.
Proof.
  unfold tlt, tsCompare. destruct a as [v x], b as [w y], d as [u z]; cbn [tver tcid].
  destruct (Nat.ltb_spec v w); destruct (Nat.ltb_spec w v); try lia;
  destruct (Nat.ltb_spec w u); destruct (Nat.ltb_spec u w); try lia;
  destruct (Nat.ltb_spec v u); destruct (Nat.ltb_spec u v); try lia; try discriminate; auto.
  assert (v = w) by lia; assert (w = u) by lia; subst.
  destruct (Nat.eqb_spec x y) as [E1|N1]; try discriminate.
  destruct (Nat.eqb_spec y z) as [E2|N2]; try discriminate.
  destruct (bytesCompare (cHash c u x) (cHash c u y)) eqn:B1; try discriminate; intros _.
  { exfalso; apply N1; apply (inj u); now apply bc_eq. }
  destruct (bytesCompare (cHash c u y) (cHash c u z)) eqn:B2; try discriminate; intros _.
  { exfalso; apply N2; apply (inj u); now apply bc_eq. }
  pose proof (bc_trans _ _ _ B1 B2) as B3. rewrite B3.
  destruct (Nat.eqb_spec x z) as [E3|N3]; auto. subst. rewrite bc_refl in B3; discriminate.
Qed.

Lemma tlt_irrefl a : ~ tlt a a.
Proof. unfold tlt; rewrite tc_refl; discriminate. Qed.

Lemma tc_gt a b : tsCompare c a b = Gt <-> tlt b a.
Proof. unfold tlt. rewrite (tc_opp a b). destruct (tsCompare c a b); cbn; intuition congruence. Qed.

Definition tle (a b : ts) : Prop := a = b \/ tlt a b.

Lemma tle_refl a : tle a a. Proof. now left. Qed.
Lemma tle_trans a b d : tle a b -> tle b d -> tle a d.
Proof. intros [->|A] [->|B]; unfold tle; auto. right; eapply tlt_trans; eauto. Qed.
Lemma tle_lt a b d : tle a b -> tlt b d -> tlt a d.
Proof. intros [->|A] B; auto. eapply tlt_trans; eauto. Qed.
Lemma tlt_le a b d : tlt a b -> tle b d -> tlt a d.
Proof. intros A [->|B]; auto. eapply tlt_trans; eauto. Qed.
Lemma tle_antisym a b : tle a b -> tle b a -> a = b.
Proof. intros [->|A] [E|B]; auto. exfalso. apply (tlt_irrefl a). eapply tlt_trans; eauto. Qed.
Lemma t_total a b : tlt a b \/ a = b \/ tlt b a.
Proof.
  destruct (tsCompare c a b) eqn:E.
  - right; left; now apply tc_eq.
  - now left.
  - right; right; now apply tc_gt.
Qed.

Lemma tc_not_gt a b : tsCompare c a b <> Gt <-> tle a b.
Proof.
  unfold tle. split.
  - destruct (tsCompare c a b) eqn:E; intros H; [left; now apply tc_eq| now right | congruence].
  - intros [->|H]; [rewrite tc_refl; discriminate|unfold tlt in H; congruence].
Qed.

Lemma tlt_succ t n : tlt t (TS (S (tver t)) n).
Proof.
  unfold tlt, tsCompare; cbn [tver tcid]. destruct (Nat.ltb_spec (tver t) (S (tver t))); auto; lia.
Qed.

(* nothing known yet is below every timestamp *)
Definition olt (a b : option ts) : Prop :=
  match a, b with
  | None, Some _ => True
  | Some x, Some y => tlt x y
  | _, None => False
  end.
Definition ole (a b : option ts) : Prop := a = b \/ olt a b.

Lemma olt_trans a b d : olt a b -> olt b d -> olt a d.
Proof. destruct a, b, d; cbn; try tauto. apply tlt_trans. Qed.
Lemma olt_irrefl a : ~ olt a a.
Proof. destruct a; cbn; auto. apply tlt_irrefl. Qed.
Lemma o_total a b : olt a b \/ a = b \/ olt b a.
Proof.
  destruct a as [a|], b as [b|]; cbn; auto.
  destruct (t_total a b) as [|[->|]]; auto.
Qed.
Lemma ole_trans a b d : ole a b -> ole b d -> ole a d.
Proof. intros [->|A] [->|B]; unfold ole; auto. right; eapply olt_trans; eauto. Qed.
Lemma ole_not_olt a b : ole a b -> ~ olt b a.
Proof. intros [->|A] B; [apply (olt_irrefl b)|apply (olt_irrefl a)]; auto. eapply olt_trans; eauto. Qed.
Lemma ole_some a b : ole (Some a) (Some b) <-> tle a b.
Proof. unfold ole, tle; cbn. intuition congruence. Qed.
End O.

Arguments tlt c a b : simpl never.
Arguments olt c !a !b /.
