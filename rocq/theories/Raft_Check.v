(** Deciding the schedule conditions of Raft_Spec on a concrete run, so that the
    examples and the refutations of Raft_Props are computed. *)
From Coq Require Import List Arith Bool Lia.
From Verif Require Import Base Raft_Model Raft_Spec.
Import ListNotations.

Definition crashOkb (cfg : list nat) (g : gstate) (n : nat) (ev : nevent) (cut : option nat) : bool :=
  match cut with
  | None => true
  | Some k => match handle cfg (g_net g) n (g_node g n) ev with
              | Some (_, effs) => match firstn k effs with [] => true | _ => negb (existsb isSaveTerm (skipn k effs)) end
              | None => true
              end
  end.
Definition unclippedb (g : gstate) (n : nat) (ev : nevent) : bool :=
  match ev with
  | NPropose cmds cnt => length cmds <=? cnt
  | NSend _ prev cnt => length (logOf g n) <=? prev + cnt
  | _ => true
  end.
Definition freshAckb (g : gstate) (n : nat) (ev : nevent) : bool :=
  match ev with
  | NRecv k _ _ =>
      match nth_error (g_net g) k with
      | Some (Ack from to ld st t rej gap lc li mc) =>
          (st =? t) ||
          negb ((fst ld =? n) && (snd ld =? m_inc (n_mem (g_node g n))) && (t =? p_term (m_p (n_mem (g_node g n))))
                && is_leader (m_role (n_mem (g_node g n))))
      | _ => true
      end
  | _ => true
  end.
Fixpoint nodupb (l : list nat) : bool :=
  match l with [] => true | x :: r => negb (existsb (Nat.eqb x) r) && nodupb r end.
Definition onePeerb (cfg : list nat) (g : gstate) (n : nat) (ev : nevent) : bool :=
  match ev with
  | NRecv k _ _ =>
      match nth_error (g_net g) k with
      | Some (Ack _ _ _ _ _ _ _ _ _ _) =>
          match handle cfg (g_net g) n (g_node g n) ev with
          | Some (m, _) => negb (is_leader (m_role m)) || nodupb (n :: map (fun x => fst (fst x)) (m_peers m))
          | None => true
          end
      | _ => true
      end
  | _ => true
  end.

Lemma crashOkb_ok : forall cfg g n ev cut, crashOkb cfg g n ev cut = true -> crashOk cfg g n ev cut.
Proof.
  intros cfg g n ev [k|] H; simpl in *; auto. intros m effs E. rewrite E in H.
  destruct (firstn k effs); [left; auto|right]. apply negb_true_iff in H. auto.
Qed.
Lemma unclippedb_ok : forall g n ev, unclippedb g n ev = true -> unclipped g n ev.
Proof. intros g n []; simpl; auto; intros H; apply Nat.leb_le in H; auto. Qed.
Lemma freshAckb_ok : forall g n ev, freshAckb g n ev = true -> freshAck g n ev.
Proof.
  intros g n []; cbn [freshAckb freshAck]; auto. intros H from to ld st t rej gap lc li mc E -> -> Hr.
  rewrite E in H. rewrite Hr in H. cbn [fst snd is_leader] in H. rewrite !Nat.eqb_refl in H.
  simpl in H. rewrite orb_false_r in H. apply Nat.eqb_eq in H; auto.
Qed.
Lemma nodupb_ok : forall l, nodupb l = true -> NoDup l.
Proof.
  induction l as [|x r IH]; simpl; intros H; constructor; apply andb_true_iff in H; destruct H as [A B]; auto.
  intros I. apply negb_true_iff in A. rewrite <- not_true_iff_false in A. apply A.
  apply existsb_exists. exists x. split; auto. apply Nat.eqb_refl.
Qed.
Lemma onePeerb_ok : forall cfg g n ev, onePeerb cfg g n ev = true -> onePeerPerName cfg g n ev.
Proof.
  intros cfg g n []; cbn [onePeerb onePeerPerName]; auto.
  intros H from to ld st t rej gap lc li mc m effs E Eh Hr. rewrite E, Eh, Hr in H. cbn [is_leader negb orb] in H.
  apply nodupb_ok; auto.
Qed.

(** [run], refusing a step that the check [okb] refuses. *)
Fixpoint runIf (cfg : list nat) (okb : gstate -> nat -> nevent -> option nat -> bool) (g : gstate) (evs : list gevent) : option gstate :=
  match evs with
  | [] => Some g
  | (n, ev, cut) :: r =>
      if okb g n ev cut
      then match step cfg g n ev cut with Some g' => runIf cfg okb g' r | None => None end
      else None
  end.
Lemma reaches_trans : forall cfg (ok : gstate -> nat -> nevent -> option nat -> Prop) a b c,
  reaches cfg ok a b -> reaches cfg ok b c -> reaches cfg ok a c.
Proof.
  intros cfg ok a b c H1 H2. revert H1. induction H2 as [g|g1 g2 g3 n ev cut H IH Ho Hs]; intros H1; auto.
  eapply reaches_step; [apply IH; exact H1|exact Ho|exact Hs].
Qed.
Lemma runIf_reaches : forall cfg (okb : gstate -> nat -> nevent -> option nat -> bool) (ok : gstate -> nat -> nevent -> option nat -> Prop),
  (forall g n ev cut, okb g n ev cut = true -> ok g n ev cut) ->
  forall evs g g', runIf cfg okb g evs = Some g' -> reaches cfg ok g g'.
Proof.
  intros cfg okb ok Hok. induction evs as [|[[n ev] cut] r IH]; simpl; intros g g' H.
  - injection H as <-. apply reaches_refl.
  - destruct (okb g n ev cut) eqn:O; [|discriminate]. destruct (step cfg g n ev cut) eqn:S; [|discriminate].
    eapply reaches_trans; [|eapply IH; eauto]. eapply reaches_step; [apply reaches_refl|eauto|eauto].
Qed.

Definition guardedb cfg g n ev cut := crashOkb cfg g n ev cut && unclippedb g n ev && freshAckb g n ev && onePeerb cfg g n ev.
Definition noClipCheckb cfg g n ev cut := crashOkb cfg g n ev cut && freshAckb g n ev && onePeerb cfg g n ev.
Definition noAckCheckb cfg g n ev cut := crashOkb cfg g n ev cut && unclippedb g n ev && onePeerb cfg g n ev.
Definition noPeerCheckb cfg g n ev cut := crashOkb cfg g n ev cut && unclippedb g n ev && freshAckb g n ev.
Definition noCrashCheckb cfg g n ev (cut : option nat) := unclippedb g n ev && freshAckb g n ev && onePeerb cfg g n ev.

Ltac okb := repeat rewrite andb_true_iff;
  intuition auto using crashOkb_ok, unclippedb_ok, freshAckb_ok, onePeerb_ok.
Lemma guardedb_ok : forall cfg g n ev cut, guardedb cfg g n ev cut = true -> guarded cfg g n ev cut.
Proof. unfold guardedb, guarded; intros; rewrite !andb_true_iff in H; okb. Qed.
Lemma noClipCheckb_ok : forall cfg g n ev cut, noClipCheckb cfg g n ev cut = true -> allButUnclipped cfg g n ev cut.
Proof. unfold noClipCheckb, allButUnclipped; intros; rewrite !andb_true_iff in H; okb. Qed.
Lemma noAckCheckb_ok : forall cfg g n ev cut, noAckCheckb cfg g n ev cut = true -> allButFreshAck cfg g n ev cut.
Proof. unfold noAckCheckb, allButFreshAck; intros; rewrite !andb_true_iff in H; okb. Qed.
Lemma noPeerCheckb_ok : forall cfg g n ev cut, noPeerCheckb cfg g n ev cut = true -> allButOnePeer cfg g n ev cut.
Proof. unfold noPeerCheckb, allButOnePeer; intros; rewrite !andb_true_iff in H; okb. Qed.
Lemma noCrashCheckb_ok : forall cfg g n ev cut, noCrashCheckb cfg g n ev cut = true -> allButCrashOk cfg g n ev cut.
Proof. unfold noCrashCheckb, allButCrashOk; intros; rewrite !andb_true_iff in H; okb. Qed.

Lemma conflict_at : forall A (a b : list A) i x y,
  nth_error a i = Some x -> nth_error b i = Some y -> x <> y -> conflict a b.
Proof.
  intros A a b i x y Ha Hb N. split; intros [c E]; subst.
  - rewrite nth_error_app1 in Hb; [congruence|]. apply nth_error_Some; congruence.
  - rewrite nth_error_app1 in Ha; [congruence|]. apply nth_error_Some; congruence.
Qed.
