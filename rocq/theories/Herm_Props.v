(* The claims about the Hermes store (C73-C78). *)

From Coq Require Import List Arith Bool Lia.
Import ListNotations.
From Verif Require Import Herm_Spec Herm_Model Herm_Order Herm_Lin Herm_Tick Herm_Uni Herm_Glob
  Herm_All Herm_AllG Herm_Bc Herm_Conv Herm_Nonlin.

(* Clusters for the examples: n nodes, with ACKs sent to all (as shipped) or
   to the writer only.  The hash keeps ids apart. *)
Definition exHash (v i : nat) : list nat := [i].
Definition shipped (n : nat) : cfg := Cfg n true exHash.
Definition direct (n : nat) : cfg := Cfg n false exHash.
Lemma exHash_inj n b : hashInj (Cfg n b exHash).
Proof. intros v x y [= ->]. reflexivity. Qed.

(* ================= C73: linearizable ================= *)

(* Proved for clusters of any size in which ACKs go to the writer only, for
   every order, loss and repetition of messages, as long as no deadline
   passes and nobody writes on a node while the key is busy there. *)
Theorem C73_linearizable_partial : forall c es,
  hashInj c -> cBcast c = false -> calm c ginit es = true ->
  linearizable (hist c es).
Proof. intros c es inj uni H. apply (uni_linearizable c inj uni es H). Qed.
Print Assumptions C73_linearizable_partial.

(* Two nodes write at once, messages cross, a third reads: both writes and
   the read are answered. *)
Definition exDirect : list event :=
  [EWrite 0 (Some 7); EWrite 1 (Some 8); EDeliver 1; EDeliver 0; EDeliver 3; EDeliver 2;
   EDeliver 4; EDeliver 5; EDeliver 6; EDeliver 7; EDeliver 8; EDeliver 9; ERead 2 false].
Example C73_linearizable_ex :
  calm (direct 3) ginit exDirect = true /\
  hist (direct 3) exDirect =
    [HInv 0 0 (OpW (Some 7)); HInv 1 1 (OpW (Some 8)); HRes 0 HErr; HRes 1 HOkW;
     HInv 2 2 OpR; HRes 2 (HOkR (Some 8))].
Proof. vm_compute. auto. Qed.

(* As shipped, three nodes, no deadline, the key never busy: one ACK is
   enough for the write, and a read on the third node misses it. *)
Definition exStale : list event :=
  [EWrite 0 (Some 7); EDeliver 0; EDeliver 2; ERead 2 false].
Theorem C73_shipped_refuted :
  ~ (forall es, calm (shipped 3) ginit es = true -> linearizable (hist (shipped 3) es)).
Proof.
  intros H. assert (X : ~ linearizable (hist (shipped 3) exStale)) by (apply nonlin; vm_compute; reflexivity).
  apply X, H. vm_compute. reflexivity.
Qed.
Print Assumptions C73_shipped_refuted.
Example C73_shipped_ex : hist (shipped 3) exStale =
  [HInv 0 0 (OpW (Some 7)); HRes 0 HOkW; HInv 1 2 OpR; HRes 1 (HOkR None)].
Proof. vm_compute. reflexivity. Qed.

(* A deadline that passes at the writer completes the write although no
   other node has seen it. *)
Definition exDeadline : list event := [EWrite 0 (Some 7); EDeadline 0 0 true; ERead 1 false].
Definition isDeadline (e : event) : bool := match e with EDeadline _ _ _ => true | _ => false end.
Definition isWrite (e : event) : bool := match e with EWrite _ _ => true | _ => false end.
Theorem C73_deadline_refuted :
  ~ (forall es, length (filter isDeadline es) <= 1 -> length (filter isWrite es) <= 1 ->
     linearizable (hist (direct 3) es)).
Proof.
  intros H. assert (X : ~ linearizable (hist (direct 3) exDeadline)) by (apply nonlin; vm_compute; reflexivity).
  apply X, H; cbn; lia.
Qed.
Print Assumptions C73_deadline_refuted.
Example C73_deadline_ex : hist (direct 3) exDeadline =
  [HInv 0 0 (OpW (Some 7)); HRes 0 HOkW; HInv 1 1 OpR; HRes 1 (HOkR None)].
Proof. vm_compute. reflexivity. Qed.

(* A write queued while the key is busy completes with somebody else's
   timestamp and is never sent: the two nodes then answer reads
   differently, although no deadline has passed. *)
Definition exBusy : list event :=
  [EWrite 0 (Some 3); EWrite 1 (Some 2); EDeliver 0; EDeliver 1; EWrite 0 (Some 1); EDeliver 3; EDeliver 4;
   ERead 0 false; ERead 1 false; ERead 0 false].
Theorem C73_busy_refuted :
  ~ (forall es, forallb noDeadline es = true -> linearizable (hist (direct 2) es)).
Proof.
  intros H. assert (X : ~ linearizable (hist (direct 2) exBusy)) by (apply nonlin; vm_compute; reflexivity).
  apply X, H. vm_compute. reflexivity.
Qed.
Print Assumptions C73_busy_refuted.
Example C73_busy_ex : hist (direct 2) exBusy =
  [HInv 0 0 (OpW (Some 3)); HInv 1 1 (OpW (Some 2)); HRes 0 HErr; HInv 2 0 (OpW (Some 1)); HRes 1 HOkW;
   HRes 2 HOkW; HInv 3 0 OpR; HRes 3 (HOkR (Some 1)); HInv 4 1 OpR; HRes 4 (HOkR (Some 2));
   HInv 5 0 OpR; HRes 5 (HOkR (Some 1))].
Proof. vm_compute. reflexivity. Qed.

(* ================= C74: values read were written ================= *)

(* Every execution, whichever way ACKs go: deadlines, busy keys, lost,
   reordered and repeated messages, nodes that panicked. *)
Theorem C74_no_invention : forall c es, no_invention (hist c es).
Proof. exact all_no_invention. Qed.
Print Assumptions C74_no_invention.

Definition exAll : list event :=
  [EWrite 0 (Some 7); EWrite 1 (Some 8); EDeliver 0; EDeliver 0; ERead 2 true; EDeadline 2 2 true;
   EDeliver 1; EDeliver 3; EWrite 0 (Some 9); EDeadline 0 0 true; ERead 0 false; ERead 1 false; ERead 2 false].
Example C74_no_invention_ex :
  calm (shipped 3) ginit exAll = false /\
  exists i v, In (HRes i (HOkR (Some v))) (hist (shipped 3) exAll).
Proof. vm_compute. eauto 20. Qed.

(* ================= C75: agreement once delivered ================= *)

(* every INV sent has been delivered *)
Definition allDelivered (g : gst) : Prop :=
  forall i d f t v id, nth_error (gNet g) i = Some (d, MInv f t v id) -> In i (gDel g).
(* all nodes hold one value: one somebody asked to write, or nothing if
   nobody wrote *)
Definition agreed (c : cfg) (es : list event) : Prop :=
  exists v, (forall n, n < cRD c -> valueAt (gN (run c ginit es) n) = v) /\
    ((exists id m, In (HInv id m (OpW v)) (hist c es)) \/
     (v = None /\ forall id m w, ~ In (HInv id m (OpW w)) (hist c es))).

Theorem C75_converge_partial : forall c es,
  hashInj c -> 1 <= cRD c -> (cBcast c = false \/ 3 <= cRD c) -> calm c ginit es = true ->
  allDelivered (run c ginit es) -> agreed c es.
Proof.
  intros c es inj N1 B H D. destruct (cBcast c) eqn:E.
  - destruct B as [B|B]; [discriminate|]. exact (bc_converge c inj E B es H D).
  - exact (uni_converge c inj E es H N1 D).
Qed.
Print Assumptions C75_converge_partial.

Definition allDeliveredb (g : gst) : bool :=
  forallb (fun i => match nth_error (gNet g) i with
                    | Some (_, MInv _ _ _ _) => existsb (Nat.eqb i) (gDel g)
                    | _ => true end) (seq 0 (length (gNet g))).
Lemma allDeliveredb_ok g : allDeliveredb g = true -> allDelivered g.
Proof.
  intros H i d f t v id E. unfold allDeliveredb in H. rewrite forallb_forall in H.
  assert (L : i < length (gNet g)) by (apply nth_error_Some; congruence).
  specialize (H i ltac:(apply in_seq; lia)). rewrite E in H. apply existsb_exists in H.
  destruct H as (j & J & X). apply Nat.eqb_eq in X. now subst j.
Qed.

Definition exConv : list event :=
  [EWrite 0 (Some 7); EWrite 1 (Some 8); EDeliver 2; EDeliver 3; EDeliver 0; EDeliver 1; EDeliver 0].
Example C75_converge_ex :
  calm (shipped 3) ginit exConv = true /\
  allDelivered (run (shipped 3) ginit exConv) /\
  map (fun n => valueAt (gN (run (shipped 3) ginit exConv) n)) [0; 1; 2] = [Some 8; Some 8; Some 8].
Proof. split; [reflexivity|]. split; [apply allDeliveredb_ok; vm_compute; reflexivity|vm_compute; reflexivity]. Qed.

(* One deadline is enough to make the nodes differ for good: a node that
   had the record of an old write installs it again. *)
Definition exDiverge : list event :=
  [EWrite 0 (Some 2); EDeliver 0; EWrite 1 (Some 1); EDeliver 1; EDeliver 4; EDeliver 5; EDeadline 1 0 true].
Theorem C75_deadline_refuted :
  ~ (forall es, allDelivered (run (shipped 3) ginit es) -> agreed (shipped 3) es).
Proof.
  intros H. assert (A : allDelivered (run (shipped 3) ginit exDiverge)).
  { apply allDeliveredb_ok. vm_compute. reflexivity. }
  destruct (H _ A) as (v & V & _).
  pose proof (V 0 ltac:(cbn; lia)) as V0. pose proof (V 1 ltac:(cbn; lia)) as V1.
  vm_compute in V0, V1. congruence.
Qed.
Print Assumptions C75_deadline_refuted.

(* ================= C76: the order of writes ================= *)

(* Timestamps are totally ordered, the same way wherever they are compared. *)
Theorem C76_total : forall c, hashInj c ->
  (forall a, ~ tlt c a a) /\
  (forall a b d, tlt c a b -> tlt c b d -> tlt c a d) /\
  (forall a b, tlt c a b \/ a = b \/ tlt c b a) /\
  (forall a b, tsCompare c b a = CompOpp (tsCompare c a b)) /\
  (forall a b, tsCompare c a b = Eq -> a = b).
Proof.
  intros c inj. repeat apply conj.
  - apply tlt_irrefl.
  - intros. eapply tlt_trans; eauto.
  - intros. apply t_total; auto.
  - intros. apply tc_opp; auto.
  - intros a b H. eapply tc_eq; eauto.
Qed.
Print Assumptions C76_total.

(* In a calm run a node never goes back to an older timestamp, ... *)
Theorem C76_never_back_partial : forall c es es' n,
  hashInj c -> (cBcast c = false \/ 3 <= cRD c) -> calm c ginit (es ++ es') = true -> n < cRD c ->
  ole c (ots (gN (run c ginit es) n)) (ots (gN (run c ginit (es ++ es')) n)).
Proof.
  intros c es es' n inj B H L. rewrite run_app.
  assert (CA : forall es1 g, calm c g (es1 ++ es') = true -> calm c g es1 = true /\ calm c (run c g es1) es' = true).
  { induction es1 as [|e es1 IH]; cbn [app calm run]; intros g X; auto.
    apply andb_true_iff in X. destruct X as [X1 X2]. rewrite X1. cbn. auto. }
  destruct (CA es ginit H) as [H1 H2]. destruct (cBcast c) eqn:E.
  - destruct B as [B|B]; [discriminate|].
    destruct (bc_run c inj E B es ginit (GB_init c) GA_init (GX_init c) H1) as [G X].
    apply (bc_mono c inj E B); auto. apply runA, GA_init.
  - destruct (uni_gx c inj E es ginit (GI_init c) GA_init (GX_init c) H1) as [G X].
    apply (uni_mono c inj E); auto. apply runA, GA_init.
Qed.
Print Assumptions C76_never_back_partial.

(* ... and no two writes have the same timestamp. *)
Theorem C76_unique_partial : forall c es id id' t v v',
  hashInj c -> (cBcast c = false \/ 3 <= cRD c) -> calm c ginit es = true ->
  In (LIss id t v) (gLog (run c ginit es)) -> In (LIss id' t v') (gLog (run c ginit es)) -> id = id' /\ v = v'.
Proof.
  intros c es id id' t v v' inj B H. destruct (cBcast c) eqn:E.
  - destruct B as [B|B]; [discriminate|].
    destruct (bc_run c inj E B es ginit (GB_init c) GA_init (GX_init c) H) as [G X]. apply (x_if2 _ _ X).
  - destruct (uni_gx c inj E es ginit (GI_init c) GA_init (GX_init c) H) as [G X]. apply (x_if2 _ _ X).
Qed.
Print Assumptions C76_unique_partial.

Example C76_ex :
  tlt (shipped 3) (TS 1 0) (TS 1 1) /\ tlt (shipped 3) (TS 1 2) (TS 2 0) /\
  map (fun k => ots (gN (run (shipped 3) ginit (firstn k exConv)) 0)) [0; 1; 2; 3; 7] =
    [None; Some (TS 1 0); Some (TS 1 0); Some (TS 1 1); Some (TS 1 1)] /\
  In (LIss 0 (TS 1 0) (Some 7)) (gLog (run (shipped 3) ginit exConv)) /\
  In (LIss 1 (TS 1 1) (Some 8)) (gLog (run (shipped 3) ginit exConv)).
Proof. vm_compute. auto 10. Qed.

(* If two ids have the same hash, each timestamp is below the other. *)
Theorem C76_collision_refuted : ~ (forall c a b, tlt c a b -> ~ tlt c b a).
Proof.
  intros H. apply (H (Cfg 2 true (fun _ _ => [])) (TS 1 0) (TS 1 1)); vm_compute; reflexivity.
Qed.
Print Assumptions C76_collision_refuted.

(* With a deadline a node does go back. *)
Theorem C76_deadline_refuted :
  ~ (forall es e n, n < 3 -> ole (shipped 3) (ots (gN (run (shipped 3) ginit es) n))
                                             (ots (gN (run (shipped 3) ginit (es ++ [e])) n))).
Proof.
  intros H. specialize (H (firstn 6 exDiverge) (EDeadline 1 0 true) 1 ltac:(lia)).
  apply (ole_not_olt (shipped 3) (exHash_inj 3 true)) in H. apply H. vm_compute. reflexivity.
Qed.
Print Assumptions C76_deadline_refuted.

(* ================= C77: no panic ================= *)

Theorem C77_no_panic_partial : forall c es n,
  hashInj c -> (cBcast c = false \/ 3 <= cRD c) -> calm c ginit es = true -> n < cRD c ->
  gDead (run c ginit es) n = false.
Proof.
  intros c es n inj B H L. destruct (cBcast c) eqn:E.
  - destruct B as [B|B]; [discriminate|]. exact (bc_no_panic c inj E B es n H L).
  - exact (uni_no_panic c inj E es n H L).
Qed.
Print Assumptions C77_no_panic_partial.
Example C77_no_panic_ex : calm (shipped 3) ginit (exConv ++ [EDeliver 4; EDeliver 5; EDeliver 6; EDeliver 7; EDeliver 8; ERead 2 true]) = true.
Proof. vm_compute. reflexivity. Qed.

(* Three writes on one node and a write from another, no deadline: the node
   deletes a queued write twice. *)
Theorem C77_busy_refuted :
  ~ (forall es n, forallb noDeadline es = true -> n < 2 -> gDead (run (shipped 2) ginit es) n = false).
Proof.
  intros H.
  specialize (H [EWrite 0 (Some 1); EWrite 0 (Some 2); EWrite 0 (Some 3); EWrite 1 (Some 9); EDeliver 1] 0
    eq_refl ltac:(lia)).
  vm_compute in H. discriminate.
Qed.
Print Assumptions C77_busy_refuted.

(* An ACK that comes before its INV, and a deadline: the record has no key. *)
Theorem C77_deadline_refuted :
  ~ (forall es n, length (filter isWrite es) <= 1 -> n < 3 ->
       gDead (run (shipped 3) ginit es) n = false).
Proof.
  intros H. specialize (H [EWrite 0 (Some 7); EDeliver 0; EDeliver 3; EDeadline 2 0 true] 2 ltac:(cbn; lia) ltac:(lia)).
  vm_compute in H. discriminate.
Qed.
Print Assumptions C77_deadline_refuted.

(* ================= C78: answers ================= *)

(* Every execution: a request is answered at most once, and only after it
   was made. *)
Theorem C78_at_most_once : forall c es, wellformed (hist c es).
Proof. exact all_wellformed. Qed.
Print Assumptions C78_at_most_once.
Example C78_at_most_once_ex : exists i j v, In (HRes i HOkW) (hist (shipped 3) exAll) /\
  In (HRes j (HOkR v)) (hist (shipped 3) exAll).
Proof. exists 0. vm_compute. eauto 20. Qed.

(* But a request may never be answered, whatever happens afterwards: a
   waiting read whose deadline passes is dropped when the ACK of its replay
   comes. *)
Definition exLost : list event :=
  [EWrite 0 (Some 3); ERead 1 true; EDeadline 1 1 true; EDeliver 0; EDeliver 2; EDeliver 6].
Theorem C78_lost_refuted :
  In (HInv 1 1 OpR) (hist (shipped 3) exLost) /\
  (forall n, n < 3 -> gDead (run (shipped 3) ginit exLost) n = false) /\
  forall es' a, ~ In (HRes 1 a) (hist (shipped 3) (exLost ++ es')).
Proof.
  split; [vm_compute; auto|]. split.
  - intros [|[|[|n]]] L; try lia; reflexivity.
  - apply never_answered. constructor.
    + vm_compute. lia.
    + split; intros; vm_compute; intuition discriminate.
    + intros [|[|[|n]]]; vm_compute; intuition discriminate.
Qed.
Print Assumptions C78_lost_refuted.
