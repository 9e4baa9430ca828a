(** C42, C43, C44: the file scanners and the zero span search. *)
From Coq Require Import List ZArith Lia Bool.
From Verif Require Import Base Cdc_Model Cdc_Spec Cdc_Proofs Sync_Model Sync_Spec
  Scan_Model Scan_Spec Scan_Proofs Scan_Proofs2 Scan_Par.
Import ListNotations.
Open Scope nat_scope.

(** A gear table and a configuration for the examples. *)
Definition gearS (b : Z) : Z := if (b =? 1)%Z then (2 ^ 64 - 2 * 65536)%Z else (2 ^ 64 - 65536)%Z.
Definition cfgS : cfg := mkCfg 64 128 256.
Definition nextS : list Z -> res nat := plakar_next gearS cfgS.
(** A hash for the examples: the bytes as digits. *)
Definition hashS (b : list Z) : Z := fold_left (fun a x => (a * 31 + x) mod 65521)%Z b 1%Z.

(** ** C42: the scanners describe the file *)

(** The one-pass scanner, for every chunker that is good and looks at no more
    than [max] bytes, with any buffer of at least [max] bytes: the chunks cover
    the file exactly, each hash is the hash of its bytes, each zero run is
    zeros, no data chunk is longer than [max]; and the chunks are those of the
    chunker on the whole file, so the size of the buffer does not show. *)
Theorem C42_one_pass_describes : forall min max next bufsz hsh file,
  good_alg min max next -> local_alg max next -> 0 < max -> max <= bufsz ->
  exists cuts cs, cutpoints next 0 file = Ok cuts /\
    getHashesOneByOne hsh next max bufsz file = Ok cs /\
    cs = joinZeros (labelledAll hsh file 0 cuts) /\
    describes hsh file cs /\ bounded max cs.
Proof.
  intros min max next bufsz hsh file G LO M MB.
  destruct (cutpoints_steps min max next file G) as (cuts & E & ST).
  assert (I := steps_incr _ _ _ G _ _ _ ST). cbn [Nat.add] in I.
  exists cuts, (joinZeros (labelledAll hsh file 0 cuts)). split; [exact E|].
  split; [eapply one_by_one; eauto|]. split; [reflexivity|].
  assert (C := labelledAll_consecutive hsh file cuts 0 (length file) I).
  assert (T := labelledAll_truthful hsh file cuts 0 (length file) I (le_n _)).
  split; [split|].
  - apply joinZeros_consecutive. exact C.
  - eapply joinZeros_truthful; [exact C|exact T].
  - apply joinZeros_bounded. eapply steps_bounded; eauto.
Qed.
Print Assumptions C42_one_pass_describes.

Definition fileS : list Z := repeat 7%Z 100 ++ repeat 1%Z 200 ++ zeros 600 ++ repeat 5%Z 30.

Example C42_one_pass_describes_ex :
  good_alg 64 256 nextS /\ local_alg 256 nextS /\
  map (fun c => (cBeg c, cEndx c, match cCry c with Rle0 => true | _ => false end))
      (match getHashesOneByOne hashS nextS 256 300 fileS with Ok cs => cs | Panic => [] end)
    = [(0, 100, false); (100, 356, false); (356, 868, true); (868, 930, false)].
Proof.
  split; [apply plakar_good; reflexivity|]. split; [apply plakar_local; reflexivity|].
  vm_compute. reflexivity.
Qed.

(** The size of the read buffer does not change the result. *)
Theorem C42_buffer_size_invisible : forall min max next b1 b2 hsh file,
  good_alg min max next -> local_alg max next -> 0 < max -> max <= b1 -> max <= b2 ->
  getHashesOneByOne hsh next max b1 file = getHashesOneByOne hsh next max b2 file.
Proof.
  intros min max next b1 b2 hsh file G LO M M1 M2.
  destruct (cutpoints_steps min max next file G) as (cuts & E & ST).
  rewrite (one_by_one min max next hsh b1 file cuts), (one_by_one min max next hsh b2 file cuts); auto.
Qed.
Print Assumptions C42_buffer_size_invisible.

Example C42_buffer_size_invisible_ex :
  getHashesOneByOne hashS nextS 256 257 fileS = getHashesOneByOne hashS nextS 256 4096 fileS.
Proof. vm_compute. reflexivity. Qed.

(** A chunker whose maximum is above the buffer makes the one-pass scanner spin
    for ever on every file longer than the buffer: no amount of steps ends. *)
Theorem C42_small_buffer_hangs_refuted : forall min max next bufsz hsh file,
  good_alg min max next -> 0 < bufsz -> bufsz < max -> bufsz < length file ->
  forall fuel, oneLoop hsh next max bufsz file fuel 0 (Nat.min (length file) bufsz) [] = Panic.
Proof.
  intros min max next bufsz hsh file G B M L. apply one_loop_hangs; auto.
  intros d D. destruct (G d D) as (c & E & _). eauto.
Qed.
Print Assumptions C42_small_buffer_hangs_refuted.

Example C42_small_buffer_hangs_ex :
  good_alg 64 256 nextS /\ 0 < 200 /\ 200 < 256 /\ 200 < length fileS /\
  getHashesOneByOne hashS nextS 256 200 fileS = Panic.
Proof.
  split; [apply plakar_good; reflexivity|].
  split; [lia|]. split; [lia|]. split; [vm_compute; lia|]. vm_compute. reflexivity.
Qed.

(** The sparse-aware scanner describes the file for every correct sparse map
    without pre-allocated parts, wherever the holes are. *)
Theorem C42_sparse_describes : forall min max next buf dmax hsh file spans,
  good_alg min max next -> local_alg max next -> stable_alg next ->
  0 < max -> max <= buf -> max <= dmax -> sparse_map file spans ->
  exists cs, summarize hsh next buf dmax file spans = Ok cs /\
    describes hsh file cs /\ bounded max cs.
Proof.
  intros min max next buf dmax hsh file spans G LO ST M MB MD SP.
  destruct (summarize_ok min max next buf dmax hsh file spans G LO ST M MB MD SP) as (acc & _ & E & OK & EO).
  exists (chunksOf hsh file 0 (rev acc)). split; [exact E|].
  destruct (chunksOf_describes hsh max file spans _ _ OK) as (C & T & B).
  rewrite EO in C. split; [split|]; auto.
Qed.
Print Assumptions C42_sparse_describes.

Example C42_sparse_describes_ex :
  let spans := [mkSpan 0 400 SData; mkSpan 400 800 SHole; mkSpan 800 930 SData] in
  sparse_map fileS spans /\ stable_alg nextS /\
  map (fun c => (cBeg c, cEndx c, match cCry c with Rle0 => true | _ => false end))
      (match summarize hashS nextS 300 300 fileS spans with Ok cs => cs | Panic => [] end)
    = [(0, 100, false); (100, 356, false); (356, 400, true); (400, 800, true); (800, 930, false)].
Proof.
  split.
  { split; [cbn; repeat split; lia|]. repeat constructor. }
  split; [apply plakar_stable; reflexivity|]. vm_compute. reflexivity.
Qed.

(** On a file without holes the two scanners give the same chunks. *)
Theorem C42_scanners_agree : forall min max next buf dmax bufsz hsh file,
  good_alg min max next -> local_alg max next -> stable_alg next ->
  0 < max -> max <= buf -> max <= dmax -> max <= bufsz -> file <> [] ->
  summarize hsh next buf dmax file [mkSpan 0 (length file) SData] =
  getHashesOneByOne hsh next max bufsz file.
Proof.
  intros min max next buf dmax bufsz hsh file G LO ST M MB MD M1 NE.
  destruct (cutpoints_steps min max next file G) as (cuts & E & _).
  rewrite (one_by_one min max next hsh bufsz file cuts) by auto.
  eapply summarize_plain; eauto.
Qed.
Print Assumptions C42_scanners_agree.

Example C42_scanners_agree_ex :
  summarize hashS nextS 300 256 fileS [mkSpan 0 930 SData] = getHashesOneByOne hashS nextS 256 1000 fileS.
Proof. vm_compute. reflexivity. Qed.

(** The three theorems at the Plakar chunker, with every valid configuration
    and every gear table. *)
Corollary C42_plakar : forall gear c bufsz buf dmax hsh file spans,
  validate c = true -> maxSize c <= bufsz -> maxSize c <= buf -> maxSize c <= dmax ->
  sparse_map file spans ->
  exists cs1 cs2,
    getHashesOneByOne hsh (plakar_next gear c) (maxSize c) bufsz file = Ok cs1 /\
    describes hsh file cs1 /\
    summarize hsh (plakar_next gear c) buf dmax file spans = Ok cs2 /\
    describes hsh file cs2.
Proof.
  intros gear c bufsz buf dmax hsh file spans V M1 M2 M3 SP.
  assert (G := plakar_good gear c V). assert (LO := plakar_local gear c V).
  assert (ST := plakar_stable gear c V).
  assert (M : 0 < maxSize c).
  { apply validate_ok in V. lia. }
  destruct (C42_one_pass_describes _ _ _ bufsz hsh file G LO M M1) as (cuts & cs1 & _ & E1 & _ & D1 & _).
  destruct (C42_sparse_describes _ _ _ buf dmax hsh file spans G LO ST M M2 M3 SP) as (cs2 & E2 & D2 & _).
  exists cs1, cs2. auto.
Qed.
Print Assumptions C42_plakar.

Example C42_plakar_ex : validate cfgS = true /\ maxSize cfgS <= 300 /\
  sparse_map fileS [mkSpan 0 930 SData].
Proof. split; [reflexivity|]. split; [cbn; lia|]. split; [cbn; repeat split; lia|repeat constructor]. Qed.

(** ** C43: chunking in parallel *)

(** When the file is one segment long at most, or the last segment holds at
    least twice the minimum chunk, the parallel scanner describes the file. *)
Theorem C43_parallel_describes_partial : forall min max next segment0 hsh file,
  let segment := Nat.max segment0 max in
  good_alg min max next -> 0 < min -> 2 * min <= max -> file <> [] ->
  length file <= segment \/ 2 * min <= (length file - 1) mod segment + 1 ->
  exists cs, chunkFile2 hsh next min max segment0 file = Ok cs /\
    describes hsh file cs /\ bounded max cs /\
    jobless next min max segment0 file = Ok [].
Proof.
  intros min max next segment0 hsh file segment G MP MM NE R.
  assert (P : 0 < length file) by (destruct file; [congruence|cbn; lia]).
  destruct (par_ok file min max next hsh segment G MP MM ltac:(unfold segment; lia) P) as (cuts & I & E & B & J).
  { unfold segment in *. lia. }
  assert (MX : Nat.max segment max = Nat.max segment0 max) by (unfold segment; lia).
  exists (joinZeros (labelledAll hsh file 0 cuts)).
  unfold chunkFile2, jobless in *. rewrite MX in E, J.
  split; [exact E|].
  assert (C := labelledAll_consecutive hsh file cuts 0 (length file) I).
  assert (T := labelledAll_truthful hsh file cuts 0 (length file) I (le_n _)).
  split; [split|split; [|exact J]].
  - apply joinZeros_consecutive. exact C.
  - eapply joinZeros_truthful; [exact C|exact T].
  - apply joinZeros_bounded. exact B.
Qed.
Print Assumptions C43_parallel_describes_partial.

Definition at1 (n : nat) (pos : list nat) : list Z :=
  map (fun i => if existsb (Nat.eqb i) pos then 1%Z else 7%Z) (seq 0 n).
Definition shape (r : res (list chunk)) : res (list (nat * nat)) :=
  match r with Ok cs => Ok (map (fun c => (cBeg c, cEndx c)) cs) | Panic => Panic end.

Example C43_parallel_describes_ex :
  2 * 64 <= (length (at1 900 [163; 339; 390]) - 1) mod 256 + 1 /\
  shape (chunkFile2 hashS nextS 64 256 256 (at1 900 [163; 339; 390])) =
    Ok [(0, 163); (163, 339); (339, 595); (595, 851); (851, 900)].
Proof. split; [vm_compute; lia|]. vm_compute. reflexivity. Qed.

(** With a shorter last segment the property fails: the parallel scanner may
    panic on a file the one-pass scanner chunks well, or return chunks that do
    not reach the end of the file. *)
Theorem C43_parallel_panics_refuted : exists file,
  good_alg 64 256 nextS /\ file <> [] /\
  chunkFile2 hashS nextS 64 256 256 file = Panic /\
  exists cs, getHashesOneByOne hashS nextS 256 1024 file = Ok cs.
Proof.
  exists (at1 1025 [189; 504]). split; [apply plakar_good; reflexivity|].
  split; [vm_compute; discriminate|]. split; [vm_compute; reflexivity|].
  vm_compute. eauto.
Qed.
Print Assumptions C43_parallel_panics_refuted.

Theorem C43_parallel_short_refuted : exists file cs,
  good_alg 64 256 nextS /\ file <> [] /\
  chunkFile2 hashS nextS 64 256 256 file = Ok cs /\ ~ describes hashS file cs.
Proof.
  exists (at1 1046 [163; 339; 390; 699; 754]). eexists. split; [apply plakar_good; reflexivity|].
  split; [vm_compute; discriminate|]. split; [vm_compute; reflexivity|].
  intros [C _]. vm_compute in C. intuition discriminate.
Qed.
Print Assumptions C43_parallel_short_refuted.

(** ** C44: the longest run of zeros *)

(** The search returns a run of zeros, none is longer, and of the longest it is
    the first. *)
Theorem C44_longest_zero_span : forall b i n, longestZeroSpan b = (i, n) ->
  zero_run b i n /\
  (forall j m, zero_run b j m -> m <= n) /\
  (forall j, 0 < n -> zero_run b j n -> i <= j).
Proof.
  intros b i n E. destruct (longest_ok b i n E) as (Z & _ & M). split; [apply zrun_zero_run; exact Z|].
  split.
  - intros j m R. apply zrun_zero_run in R. apply M in R. tauto.
  - intros j N R. apply zrun_zero_run in R. apply M in R. destruct R as [_ R]. auto.
Qed.
Print Assumptions C44_longest_zero_span.

Example C44_longest_zero_span_ex :
  longestZeroSpan [1; 0; 0; 3; 0; 0; 0; 4; 0; 0; 0; 9]%Z = (4, 3) /\
  longestZeroSpan [5; 6]%Z = (0, 0) /\ longestZeroSpan (zeros 9) = (0, 9).
Proof. vm_compute. auto. Qed.

(** The wide version gives the same answer on every machine: with and without
    64 and 32 byte compares. *)
Theorem C44_wide_is_naive : forall avx512 avx2 b,
  simdLongestZeroSpan avx512 avx2 b = longestZeroSpan b.
Proof. intros. apply simd_agrees. Qed.
Print Assumptions C44_wide_is_naive.

Example C44_wide_is_naive_ex :
  simdLongestZeroSpan true true (repeat 1%Z 3 ++ zeros 100 ++ [7%Z] ++ zeros 101) = (104, 101) /\
  simdLongestZeroSpan false false (repeat 1%Z 3 ++ zeros 100 ++ [7%Z] ++ zeros 101) = (104, 101).
Proof. vm_compute. auto. Qed.
