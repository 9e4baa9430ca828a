(** C27, C41: the file sync. *)
From Coq Require Import List ZArith Lia Bool.
From Verif Require Import Base Sync_Model Sync_Spec Sync_Proofs.
Import ListNotations.
Open Scope nat_scope.

(** A hash without collisions on bytes, for the examples. *)
Definition exHash (l : list Z) : Z := fold_left (fun a b => a * 257 + b + 1)%Z l 0%Z.

Definition exGoalBytes : list Z := [1; 2; 3; 0; 0; 0; 7; 8]%Z.
Definition exGoal : list chunk :=
  [mkChunk 0 3 (Hash (exHash [1; 2; 3]%Z)) []; mkChunk 3 6 Rle0 [];
   mkChunk 6 8 (Hash (exHash [7; 8]%Z)) []].
Definition exOld : list Z := [9; 7; 8]%Z.
Definition exLocal : list chunk :=
  [mkChunk 0 1 (Hash (exHash [9]%Z)) []; mkChunk 1 3 (Hash (exHash [7; 8]%Z)) []].
Definition exMsz (c : chunk) : nat := 10 + length (cData c).

(** ** C27 *)

(** Given the size of the giver's file, truthful chunk lists of both files, no
    hash collision between them, zero runs the taker can write, chunks that fit
    a fragment and the taker's buffer, and no pre-allocated tail: the taker's
    path ends up with exactly the giver's bytes. Missing for the full C27: the
    cases excluded here, where it is false (below). *)
Theorem C27_sync_rebuilds_partial : forall hsh msz max bufCap goalBytes goal v local orig,
  describes hsh goalBytes goal ->
  match orig with
  | Some o => describes hsh o local /\ no_chunk_collision hsh goalBytes goal o local /\
              (hsh o = hsh goalBytes -> o = goalBytes)
  | None => local = []
  end ->
  vChunks v = local -> (forall h, vCry v = Some h -> exists o, orig = Some o /\ h = hsh o) ->
  Forall writable_run goal ->
  Forall (fun c => msz c < max /\
     (cCry c <> Rle0 -> msz (withData c (slice goalBytes (cBeg c) (cEndx c))) < max)) goal ->
  Forall (fun c => cCry c <> Rle0 -> cLen c <= bufCap) local ->
  syncFile hsh msz max bufCap (length goalBytes) 0 goalBytes goal goalBytes v local orig
  = Ok (Some goalBytes).
Proof. exact sync_rebuilds. Qed.
Print Assumptions C27_sync_rebuilds_partial.

(** Two fragments, one chunk reused, one shipped, one zero run. *)
Example C27_sync_rebuilds_ex :
  describes exHash exGoalBytes exGoal /\ describes exHash exOld exLocal /\
  no_chunk_collision exHash exGoalBytes exGoal exOld exLocal /\
  exHash exOld <> exHash exGoalBytes /\
  Forall writable_run exGoal /\
  Forall (fun c => exMsz c < 20 /\
     (cCry c <> Rle0 -> exMsz (withData c (slice exGoalBytes (cBeg c) (cEndx c))) < 20)) exGoal /\
  Forall (fun c => cCry c <> Rle0 -> cLen c <= 2) exLocal /\
  syncFile exHash exMsz 20 2 8 0 exGoalBytes exGoal exGoalBytes
    (mkView (Some (exHash exOld)) exLocal) exLocal (Some exOld) = Ok (Some exGoalBytes).
Proof.
  split; [|split; [|split; [|split; [|split; [|split; [|split]]]]]].
  - split; [cbn; lia|]. repeat constructor.
  - split; [cbn; lia|]. repeat constructor.
  - intros c1 c2 [<-|[<-|[<-|[]]]] [<-|[<-|[]]]; vm_compute; intro; congruence.
  - vm_compute. discriminate.
  - apply Forall_forall. intros c [<-|[<-|[<-|[]]]] E; try discriminate E.
    left. apply Nat.leb_le. vm_compute. reflexivity.
  - repeat constructor; cbn; lia.
  - repeat constructor; cbn; lia.
  - vm_compute. reflexivity.
Qed.

(** The same for the in-memory version: the full plan applied to any local
    file gives the goal. *)
Theorem C27_in_memory : forall hsh goalBytes goal old local,
  consecutive 0 goal (length goalBytes) -> consecutive 0 local (length old) ->
  Forall (fun c => truthful hsh goalBytes (cloneNoData c) /\ carries goalBytes c) goal ->
  Forall (fun c => truthful hsh old (cloneNoData c) /\ carries old c) local ->
  no_chunk_collision hsh goalBytes goal old local ->
  exists plan, planFull [] (map cloneNoData local) goal = Ok plan /\
    updateLocal hsh local (length goalBytes) (hsh goalBytes) plan = Ok goalBytes.
Proof. exact update_local_ok. Qed.
Print Assumptions C27_in_memory.

Definition loadUp (bytes : list Z) (c : chunk) : chunk :=
  match cCry c with Hash _ => withData c (slice bytes (cBeg c) (cEndx c)) | _ => c end.

Example C27_in_memory_ex :
  let g := map (loadUp exGoalBytes) exGoal in
  let l := map (loadUp exOld) exLocal in
  consecutive 0 g (length exGoalBytes) /\ consecutive 0 l (length exOld) /\
  Forall (fun c => truthful exHash exGoalBytes (cloneNoData c) /\ carries exGoalBytes c) g /\
  Forall (fun c => truthful exHash exOld (cloneNoData c) /\ carries exOld c) l /\
  no_chunk_collision exHash exGoalBytes g exOld l /\
  (exists plan, planFull [] (map cloneNoData l) g = Ok plan /\
     map (fun c => length (cData c)) plan = [3; 0; 0]).
Proof.
  cbn zeta. split; [cbn; lia|]. split; [cbn; lia|].
  split; [repeat constructor|]. split; [repeat constructor|]. split.
  - intros c1 c2 [<-|[<-|[<-|[]]]] [<-|[<-|[]]]; vm_compute; intro; congruence.
  - eexists. split; vm_compute; reflexivity.
Qed.

(** A pull request does not carry the size of the giver's file (jsync.go 240 and
    service.go 850 set it for pushes only): a file that ends in a hole loses the hole, and
    the checksum passes. Here: a file of one hole
    comes out empty. *)
Theorem C27_pull_trailing_hole_refuted : forall hsh,
  let goalBytes := zeros block in
  let goal := [mkChunk 0 block Rle0 []] in
  describes hsh goalBytes goal /\ Forall writable_run goal /\
  syncFile hsh exMsz 20 2 0 0 goalBytes goal goalBytes (mkView None []) [] None = Ok (Some []).
Proof.
  intros hsh goalBytes goal. assert (B := block_pos). split; [|split].
  - split.
    + cbn. unfold goalBytes, zeros. rewrite repeat_length. lia.
    + constructor; [|constructor]. split; [reflexivity|]. cbn.
      unfold slice, goalBytes, cLen. cbn. rewrite Nat.sub_0_r.
      rewrite firstn_all2; [reflexivity|]. unfold zeros. rewrite repeat_length. lia.
  - constructor; [|constructor]. intros _. left. unfold cLen. cbn. lia.
  - unfold syncFile. cbn [vCry Nat.eqb andb planMarks goal cData cCry bind].
    replace (packAll _ exMsz 20 goalBytes _) with (Ok [(goal, true)]) by (vm_compute; reflexivity).
    cbn [bind].
    unfold takerPlan. replace (length goalBytes =? 0) with false by (vm_compute; reflexivity).
    cbn [takerFrags].
    replace (run_res _ _ _) with (Ok (mkTaker (mkFile [] block) (zeros block))) by (vm_compute; reflexivity).
    cbn [bind tHashed tFile fBytes]. unfold goalBytes. rewrite Z.eqb_refl. reflexivity.
Qed.
Print Assumptions C27_pull_trailing_hole_refuted.

(** A zero run of 5000 bytes that starts at 100 has no whole aligned page in
    it, and the taker slices 5000 bytes out of a page of zeros: it panics. *)
Theorem C27_unaligned_run_refuted : forall hsh,
  let goalBytes := repeat 1%Z 100 ++ zeros (904 + block) in
  let goal := [mkChunk 0 100 (Hash (hsh (repeat 1%Z 100))) []; mkChunk 100 (1004 + block) Rle0 []] in
  describes hsh goalBytes goal /\
  syncFile hsh exMsz 200 200 (length goalBytes) 0 goalBytes goal goalBytes (mkView None []) [] None = Panic.
Proof.
  intros hsh goalBytes goal. assert (B := block_pos). split.
  - split.
    + unfold goalBytes, goal, zeros. rewrite app_length, !repeat_length.
      cbn [consecutive cBeg cEndx]. lia.
    + constructor; [|constructor; [|constructor]]; (split; [reflexivity|]); cbn [cCry goal].
      * unfold slice, goalBytes. cbn [cBeg cEndx]. rewrite Nat.sub_0_r. cbn [skipn].
        rewrite firstn_app, repeat_length, Nat.sub_diag, firstn_O, app_nil_r.
        rewrite firstn_all2; [reflexivity|]. rewrite repeat_length. lia.
      * unfold slice, goalBytes, cLen. cbn [cBeg cEndx].
        rewrite skipn_app, repeat_length, Nat.sub_diag, skipn_O.
        rewrite skipn_all2 by (rewrite repeat_length; lia). rewrite app_nil_l.
        replace (1004 + block - 100) with (904 + block) by lia.
        apply firstn_all2. unfold zeros. rewrite repeat_length. lia.
  - unfold goalBytes, goal. vm_compute. reflexivity.
Qed.
Print Assumptions C27_unaligned_run_refuted.

(** A file with a pre-allocated tail is not given its size before the hole is
    seeked over: a data-free page followed by a pre-allocated one leaves an
    empty file, and the checksum passes. *)
Theorem C27_preallocated_refuted : forall hsh,
  let goalBytes := zeros block in
  let goal := [mkChunk 0 block Rle0 []; mkChunk block (2 * block) Unwrit []] in
  syncFile hsh exMsz 30 2 (length goalBytes) (2 * block) goalBytes goal goalBytes (mkView None []) [] None
  = Ok (Some []).
Proof.
  intros hsh goalBytes goal. unfold syncFile.
  replace (2 * block =? 0) with false by (vm_compute; reflexivity).
  cbn [vCry andb planMarks goal cData cCry bind].
  replace (packAll _ exMsz 30 goalBytes _) with (Ok [(goal, true)]) by (vm_compute; reflexivity).
  cbn [bind]. unfold takerPlan. replace (length goalBytes =? 0) with false by (vm_compute; reflexivity).
  cbn [takerFrags].
  replace (run_res _ _ _) with (Ok (mkTaker (mkFile [] block) (zeros block))) by (vm_compute; reflexivity).
  cbn [bind tHashed tFile fBytes]. unfold goalBytes. rewrite Z.eqb_refl. reflexivity.
Qed.
Print Assumptions C27_preallocated_refuted.

(** A chunk that does not fit a fragment is never sent: the giver loops. *)
Theorem C27_big_chunk_refuted : forall fuel c d max bytes,
  cData c = marker -> cCry c <> Rle0 -> readFull bytes (cBeg c) (cLen c) = Ok d ->
  max <= exMsz (withData c d) ->
  packAll fuel exMsz max bytes [c] = Panic.
Proof.
  induction fuel as [|f IH]; intros c d max bytes M K R L; [reflexivity|].
  cbn [packAll takePack].
  assert (F : fillMark bytes c = Ok (withData c d)).
  { unfold fillMark. rewrite M. cbn [marker]. destruct (cCry c); try congruence; rewrite R; reflexivity. }
  rewrite F. cbn [bind].
  destruct (Nat.ltb_spec (0 + exMsz (withData c d)) max) as [X|X]; [lia|].
  cbn [fst snd bind]. rewrite (IH c d max bytes M K R L). reflexivity.
Qed.
Print Assumptions C27_big_chunk_refuted.

Example C27_big_chunk_ex :
  packAll 100 exMsz 12 [1; 2; 3]%Z [mkChunk 0 3 (Hash 5%Z) marker] = Panic.
Proof. apply (C27_big_chunk_refuted 100 _ [1; 2; 3]%Z); try reflexivity; [discriminate|cbn; lia]. Qed.

(** A file whose chunk list is empty (a short file that is pre-allocated but
    never written, rsync.go 1105-1110) is never committed: no last fragment is
    sent. *)
Theorem C27_no_chunks_refuted : forall hsh msz max bufCap size prealloc bytes v local orig,
  bytes <> [] -> 0 < prealloc ->
  syncFile hsh msz max bufCap size prealloc bytes [] bytes v local orig = Ok None.
Proof.
  intros hsh msz max bufCap size prealloc bytes v local orig NE P. unfold syncFile.
  destruct (Nat.eqb_spec prealloc 0); [lia|]. cbn [andb planMarks bind packAll length].
  unfold takerPlan. destruct bytes; [congruence|]. reflexivity.
Qed.
Print Assumptions C27_no_chunks_refuted.

Example C27_no_chunks_ex : [0; 0]%Z <> [] /\ 0 < 2.
Proof. split; [discriminate|lia]. Qed.

(** ** C41 *)

(** Both files may change while the sync runs: [goalNow] is what the giver
    reads when it ships chunks, [now] what the taker reads from its old
    version. Whatever is renamed into place has the size and the checksum the
    giver announced. *)
Theorem C41_commit_has_announced_checksum :
  forall hsh msz max bufCap goalBytes goal goalNow v old local now bytes,
  describes hsh goalBytes goal ->
  describes hsh old local -> no_chunk_collision hsh goalBytes goal old local ->
  vCry v <> Some (hsh goalBytes) -> goalBytes <> [] ->
  syncFile hsh msz max bufCap (length goalBytes) 0 goalBytes goal goalNow v local now = Ok (Some bytes) ->
  hsh bytes = hsh goalBytes /\ length bytes = length goalBytes.
Proof.
  intros hsh msz max bufCap goalBytes goal goalNow v old local now bytes DG DL NC V NE E.
  exact (sync_safe _ _ _ _ _ _ _ _ _ _ _ _ DG DL NC V E NE).
Qed.
Print Assumptions C41_commit_has_announced_checksum.

(** Non-vacuous; and a source that changes under the sync is not committed. *)
Example C41_commit_ex :
  describes exHash exGoalBytes exGoal /\ describes exHash exOld exLocal /\
  no_chunk_collision exHash exGoalBytes exGoal exOld exLocal /\
  Some (exHash exOld) <> Some (exHash exGoalBytes) /\ exGoalBytes <> [] /\
  syncFile exHash exMsz 20 2 8 0 exGoalBytes exGoal exGoalBytes
    (mkView (Some (exHash exOld)) exLocal) exLocal (Some exOld) = Ok (Some exGoalBytes) /\
  syncFile exHash exMsz 20 2 8 0 exGoalBytes exGoal [1; 2; 4; 0; 0; 0; 7; 8]%Z
    (mkView (Some (exHash exOld)) exLocal) exLocal (Some exOld) = Panic /\
  syncFile exHash exMsz 20 2 8 0 exGoalBytes exGoal exGoalBytes
    (mkView (Some (exHash exOld)) exLocal) exLocal (Some [9; 7; 9]%Z) = Panic.
Proof.
  destruct C27_sync_rebuilds_ex as (A & B & C & D & _ & _ & _ & E).
  split; [exact A|]. split; [exact B|]. split; [exact C|]. split; [congruence|].
  split; [discriminate|]. split; [exact E|]. split; vm_compute; reflexivity.
Qed.
