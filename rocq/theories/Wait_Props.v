(** Requests that wait at a node: C111-C116. *)
From Coq Require Import List ZArith Bool Arith Lia Sorted.
Import ListNotations.
From Verif Require Import Wait_Model Wait_Spec Wait_Proofs Wait_Order Wait_Main Wait_Told.
Local Open Scope Z_scope.

(** C111: whatever was put in, taken out, given an index and walked, the request that waits under an ID is the last one put in and not taken out. *)
Theorem C111_by_id : forall f os id,
  get id (byId (snd (irun (fun p => Tk (f p) 0, newImap) os))) = holder f os id.
Proof. intros f os id. apply (run_holder f os). Qed.
Print Assumptions C111_by_id.

Definition ids (p : nat) : Z := Z.of_nat p + 10.
Example C111_ex : let os := [OSet 1; OSet 2; OAssign 2 7; OWalk; ODel 1] in
  map (fun id => get id (byId (snd (irun (fun p => Tk (ids p) 0, newImap) os)))) [11; 12; 13] = [None; Some 2%nat; None].
Proof. vm_compute; reflexivity. Qed.

(** C112: the walk yields exactly the waiting requests that have a log index, in its order (so each once), if no two requests of one ID wait
    together, an index is given once, and no two requests get the same. *)
Theorem C112_walk_partial : forall f os, orderly f os ->
  (forall p, In p (walked f os) <-> holder f os (f p) = Some p /\ 0 < indexOf os p) /\
  StronglySorted (fun p q => indexOf os p < indexOf os q) (walked f os).
Proof.
  intros f os R. unfold walked. pose proof (run_inv f os R) as [O V]. pose proof (run_holder f os) as (A & B & C). cbv zeta in *.
  destruct (irun (fun p => Tk (f p) 0, newImap) os) as [h s]. cbn [fst snd] in *.
  destruct (inv_repair h s O V) as [(I1 & I2 & I3 & I4) N]. unfold iall. cbn [snd]. split.
  - intros p. rewrite <- B, <- C. split.
    + intros Q. apply in_map_iff in Q as ([k q] & <- & Q). destruct (I1 _ _ Q) as (-> & L & T). cbn [snd]. rewrite repair_byId, A in T. auto.
    + intros [T L]. rewrite <- (repair_byId h s) in T. destruct (I3 _ _ T) as (_ & [Q | Q]).
      * apply in_map_iff. exists (tIdx (h p), p). auto.
      * exfalso. apply (N _ _ Q L).
  - assert (E : forall x, In x (ordered (repair h s)) -> fst x = indexOf os (snd x)).
    { intros [k q] Q. destruct (I1 _ _ Q) as (-> & _). cbn. apply B. }
    revert I4 E. generalize (ordered (repair h s)). clear. induction l as [|x l IH]; intros S E; cbn [map]; [constructor|].
    inversion S as [|? ? S' F]; subst. constructor; [apply IH; [exact S' | intros y Y; apply E; right; exact Y]|].
    apply Forall_forall. intros p P. apply in_map_iff in P as (y & <- & Y). rewrite Forall_forall in F. specialize (F y Y). unfold lt1 in F.
    rewrite <- (E x), <- (E y); [exact F | right; exact Y | left; reflexivity].
Qed.
Print Assumptions C112_walk_partial.

Definition os112 : list iop := [OSet 1; OSet 2; OAssign 2 3; OSet 3; OAssign 1 8; OWalk; OAssign 3 5; OSet 4; ODel 2].
Example C112_ex : orderly ids os112 /\ walked ids os112 = [3; 1]%nat.
Proof.
  split; [|vm_compute; reflexivity]. intros a o b E. unfold os112 in E.
  assert (J : forall p q, ids p = ids q -> p = q) by (unfold ids; intros; lia).
  repeat (destruct a as [|? a]; cbn [app] in E; [injection E as <- _ | injection E as <- E];
    [try exact I; try (split; [reflexivity | split; [reflexivity|]]; intros q; unfold indexOf; cbn [fold_left]);
     try (intros q; unfold holder; cbn [fold_left ids Z.of_nat Pos.of_succ_nat Z.add]; cbn; intros H; congruence)|]).
  all: try (match goal with K : [] = ?x ++ _ |- _ => destruct x; discriminate K end).
  all: repeat match goal with |- context [if ?c then _ else _] => destruct c end; lia.
Qed.

(** Sent again under the same ID, a request leaves its first copy behind: walked for ever after, though nothing waits any more. *)
Theorem C112_again_refuted : exists f os p,
  (forall id, holder f os id = None) /\ In p (walked f os).
Proof.
  exists (fun _ => 7), [OSet 1; OAssign 1 3; OSet 1; OAssign 2 9; OSet 2; ODel 2], 1%nat. split; [|vm_compute; auto].
  intros id. unfold holder. cbn [fold_left]. destruct (7 =? id); reflexivity.
Qed.
Print Assumptions C112_again_refuted.

(** C113: on a leader whose first entry has committed, a request is put in the log with the next batch, after those that came before it, and waits for its commit. *)
Theorem C113_later_partial : forall es id, let m := run start es in
  leader m = true -> noopDone m = true ->
  let n := run start (es ++ [EReq id; EBatch]) in
  map (fun p => tId (hp n p)) (log n) = map (fun p => tId (hp m p)) (log m ++ batch m) ++ [id] /\ waits id n.
Proof.
  intros es id m L D n. assert (E : n = flush (withBatch (batch m ++ [next m]) (alloc id 0 m))).
  { unfold n. rewrite run_app. fold m. cbn [run fold_left step]. rewrite L. unfold replicate. cbn [noopDone alloc]. rewrite D. cbn [withBatch leader alloc batch]. rewrite L. reflexivity. }
  pose proof (run_G es _ G_start) as (_ & _ & GL & GB). fold m in GL, GB.
  destruct (flush_keeps (withBatch (batch m ++ [next m]) (alloc id 0 m))) as [_ K]. rewrite <- E in K.
  assert (T : forall q, tId (hp n q) = tId (store (next m) (Tk id 0) (hp m) q)) by exact K.
  split.
  - assert (LG : log n = (log m ++ batch m) ++ [next m]) by (rewrite E, flush_log; cbn [withBatch log alloc batch]; apply app_assoc).
    rewrite LG, map_app. f_equal.
    + apply map_ext_in. intros q Q. rewrite T. unfold store. destruct (Nat.eqb_spec q (next m)) as [-> | N]; [|reflexivity].
      apply in_app_iff in Q as [Q | Q]; [apply GL in Q | apply GB in Q]; lia.
    + cbn [map]. rewrite T. unfold store. rewrite Nat.eqb_refl. reflexivity.
  - left. rewrite E. unfold flush. cbn [withBatch batch]. rewrite fold_left_app. cbn [fold_left].
    set (x := fold_left logOne (batch m) _). unfold logOne, walSet, withWal. cbn [wal hp].
    assert (R : forall h j q w, byId (iset h j q w) = put j q (byId w)) by (intros h j q w; unfold iset; destruct (0 <? tIdx (h q)); reflexivity).
    rewrite R, get_put, assign_id.
    assert (X : tId (hp x (next m)) = id).
    { unfold x. destruct (keeps_fold logOne (batch m) (withBatch [] (withBatch (batch m ++ [next m]) (alloc id 0 m))) keeps_logOne) as [_ Y].
      unfold withBatch in Y at 1 3. cbn [hp] in Y. etransitivity; [apply Y|]. cbn. unfold store. rewrite Nat.eqb_refl. reflexivity. }
    rewrite X, Z.eqb_refl. discriminate.
Qed.
Print Assumptions C113_later_partial.

Example C113_ex : let es := [EReq 3; ELead 100; ECommit; EReq 5] in let m := run start es in
  leader m = true /\ noopDone m = true /\
  map (fun p => tId (hp (run start (es ++ [EReq 7; EBatch])) p)) (log (run start (es ++ [EReq 7; EBatch]))) = [100; 5; 7].
Proof. vm_compute; auto. Qed.

(** A request that arrives before that is never put in the log and never answered, whatever happens, unless its client sends it again. *)
Theorem C113_stalled_refuted : forall es1 id es2, (forall e, In e (es1 ++ es2) -> ~ about e id) ->
  leader (run start es1) = true -> noopDone (run start es1) = false ->
  let n := run start (es1 ++ EReq id :: es2) in ~ logged id n /\ ~ batched id n /\ ~ heard id n.
Proof.
  intros es1 id es2 N L D n. eapply P_nothing.
  - apply run_G, G_start.
  - apply run_H; [apply G_start | apply H_start].
  - apply stalled_P; [exact N | right; exact D].
Qed.
Print Assumptions C113_stalled_refuted.

Definition after113 : list event := [ECommit; EBatch; EReq 8; EBatch; ECommit; EBatch; ECommit].
Example C113_stalled_ex : (forall e, In e ([ELead 100] ++ after113) -> ~ about e 7) /\
  leader (run start [ELead 100]) = true /\ noopDone (run start [ELead 100]) = false /\
  let n := run start ([ELead 100] ++ EReq 7 :: after113) in
  noopDone n = true /\ applied n = 2%nat /\ map (fun p => tId (hp n p)) (log n) = [100; 8] /\ get 7 (byId (wal n)) <> None.
Proof.
  split; [|vm_compute; repeat split; discriminate].
  intros e E. unfold after113 in E. cbn [app In] in E. repeat (destruct E as [<- | E]; [cbn; try tauto; lia|]). contradiction.
Qed.

(** C114: what waits at a follower, having got no answer, is dropped when it becomes leader: it is not known any more, not put in the log, and its client hears nothing. *)
Theorem C114_takeover_refuted : forall es1 id es2 id', (forall e, In e (es1 ++ es2) -> ~ about e id) -> id' <> id ->
  leader (run start es1) = false -> leader (run start (es1 ++ EReq id :: es2)) = false ->
  let n := run start ((es1 ++ EReq id :: es2) ++ [ELead id']) in ~ waits id n /\ ~ logged id n /\ ~ heard id n.
Proof.
  intros es1 id es2 id' N NE L1 L2 n.
  assert (HP : P id (next (run start es1)) (run start (es1 ++ EReq id :: es2))) by (apply stalled_P; [exact N | left; exact L1]).
  pose proof (run_G (es1 ++ EReq id :: es2) _ G_start) as HG.
  assert (E : n = lead id' (run start (es1 ++ EReq id :: es2))) by (unfold n; rewrite run_app; reflexivity).
  split.
  - rewrite E. eapply lead_drops; [exact HG | apply run_F, F_start | exact L2 | exact HP | exact NE].
  - assert (P2 : P id (next (run start es1)) n) by (rewrite E; apply lead_both; [exact HG | exact HP | exact NE]).
    destruct (P_nothing id _ n (run_G _ _ G_start) (run_H _ _ G_start H_start) P2) as (A & _ & B). auto.
Qed.
Print Assumptions C114_takeover_refuted.

Example C114_ex : (forall e, In e ([EAppend 1] ++ [ECommit; EAppend 2]) -> ~ about e 7) /\ 100 <> 7 /\
  leader (run start [EAppend 1]) = false /\ leader (run start ([EAppend 1] ++ EReq 7 :: [ECommit; EAppend 2])) = false /\
  get 7 (byId (waf (run start ([EAppend 1] ++ EReq 7 :: [ECommit; EAppend 2])))) <> None.
Proof.
  split; [|vm_compute; repeat split; discriminate].
  intros e E. cbn [app In] in E. repeat (destruct E as [<- | E]; [cbn; try tauto; lia|]). contradiction.
Qed.

(** C115: a client whose request is in the batch is told when the leader steps down. *)
Theorem C115_batched_partial : forall es id, leader (run start es) = true -> batched id (run start es) ->
  heard id (run start (es ++ [EDown])).
Proof.
  intros es id L (p & Q & T). rewrite run_app. cbn [run fold_left step]. unfold stepDown. change (fold_left step es start) with (run start es). rewrite L.
  exists p. split; [|exact T]. right. cbn [told]. apply in_app_iff. right. apply in_app_iff. left. exact Q.
Qed.
Print Assumptions C115_batched_partial.

Example C115_ex : leader (run start [ELead 100; ECommit; EReq 7]) = true /\ batched 7 (run start [ELead 100; ECommit; EReq 7]).
Proof. split; [vm_compute; reflexivity|]. exists 1%nat. split; [vm_compute; auto | vm_compute; reflexivity]. Qed.

(** So is one whose request this leader has put in its log and not committed, if no request reaches the node twice. *)
Theorem C115_logged_partial : forall es b j p, once es -> let n := run start es in leader n = true ->
  nth_error (log n) b = Some (noop n) -> (b <= j)%nat -> (applied n <= j)%nat -> nth_error (log n) j = Some p ->
  In p (told (run start (es ++ [EDown]))).
Proof.
  intros es b j p O n L J X Y Q. pose proof (told_logged es b j p O L J X Y Q) as W. rewrite run_app. fold n in W |- *.
  cbn [run fold_left step]. unfold stepDown. rewrite L. cbn [told]. rewrite !in_app_iff. auto.
Qed.
Print Assumptions C115_logged_partial.

Definition es115 : list event := [EAppend 1; EReq 3; ELead 100; ECommit; EReq 4; ECommit; EReq 5; EReq 6; EBatch; ECommit].
Example C115_logged_ex : once es115 /\ let n := run start es115 in leader n = true /\ nth_error (log n) 1 = Some (noop n) /\ applied n = 3%nat /\
  nth_error (log n) 3 = Some 5%nat /\ tId (hp n 5%nat) = 6.
Proof.
  split; [|vm_compute; repeat split; reflexivity]. intros a e b E. unfold es115 in E.
  repeat (destruct a as [|? a]; cbn [app] in E; [injection E as <- _ | injection E as <- E];
    [try exact I; cbn [In]; intros e' X; repeat (destruct X as [<- | X]; [cbn; try tauto; lia|]); contradiction|]).
  match goal with Q : [] = ?x ++ _ |- _ => destruct x; discriminate Q end.
Qed.

(** One whose request waits for the leader's first commit is not, and the request is forgotten. *)
Theorem C115_stalled_refuted : forall es1 id es2, (forall e, In e (es1 ++ es2) -> ~ about e id) ->
  leader (run start es1) = true -> noopDone (run start es1) = false ->
  leader (run start (es1 ++ EReq id :: es2)) = true ->
  let n := run start ((es1 ++ EReq id :: es2) ++ [EDown]) in get id (byId (wal n)) = None /\ ~ heard id n.
Proof.
  intros es1 id es2 N L D M n. split.
  - unfold n. rewrite run_app. set (m := run start (es1 ++ EReq id :: es2)) in *. cbn [run fold_left step]. unfold stepDown. rewrite M. reflexivity.
  - assert (E : n = run start (es1 ++ EReq id :: (es2 ++ [EDown]))) by (unfold n; rewrite <- app_assoc; reflexivity).
    rewrite E. apply C113_stalled_refuted; [|exact L | exact D].
    intros e Q. rewrite app_assoc in Q. apply in_app_iff in Q as [Q | [<- | []]]; [apply N, Q | cbn; tauto].
Qed.
Print Assumptions C115_stalled_refuted.

Example C115_stalled_ex : (forall e, In e ([ELead 100] ++ [ECommit]) -> ~ about e 7) /\
  leader (run start [ELead 100]) = true /\ noopDone (run start [ELead 100]) = false /\ leader (run start ([ELead 100] ++ EReq 7 :: [ECommit])) = true.
Proof.
  split; [|vm_compute; auto].
  intros e E. cbn [app In] in E. repeat (destruct E as [<- | E]; [cbn; try tauto; lia|]). contradiction.
Qed.

(** C116: when an entry is committed its ticket has the entry's index, so that the check of commitWhatWeCan (tube.go:10348-10350), which panics
    otherwise, passes; if no request reaches the node twice. *)
Theorem C116_index_partial : forall es p, once es -> let n := run start es in
  nth_error (log n) (applied n) = Some p -> tIdx (hp n p) = Z.of_nat (applied n) + 1.
Proof. intros es p O n E. destruct (run_KK es O) as ((A & _) & _). apply A. exact E. Qed.
Print Assumptions C116_index_partial.

Example C116_ex : once es115 /\ nth_error (log (run start es115)) (applied (run start es115)) = Some 5%nat.
Proof. split; [apply C115_logged_ex | vm_compute; reflexivity]. Qed.

(** A request that arrives twice makes it fail: committing the first gives the second its index. *)
Theorem C116_twice_refuted : exists es p, let n := run start es in
  nth_error (log n) (applied n) = Some p /\ tIdx (hp n p) <> Z.of_nat (applied n) + 1.
Proof. exists [ELead 100; ECommit; EReq 7; EReq 7; EBatch; ECommit], 2%nat. vm_compute. split; [reflexivity | discriminate]. Qed.
Print Assumptions C116_twice_refuted.
