(** C25, C26 and C40: chunking partitions the input, is local, and padding is
    cheap, idempotent and monotone. *)
From Coq Require Import List ZArith Lia Bool.
From Verif Require Import Base Cdc_Model Cdc_Spec Cdc_Proofs.
Import ListNotations.
Open Scope nat_scope.

(** A configuration accepted by [Validate].  UltraCDC also needs room for one
    window between its minimum and maximum (see the refutation below). *)
Definition usable (ch : chunker) (c : cfg) : Prop :=
  validate c = true /\ (ch = Ultra -> minSize c + 8 <= maxSize c).

Lemma next_good : forall ch c, usable ch c -> good_alg (minSize c) (maxSize c) (next_cut ch c).
Proof.
  intros ch c [V U]. pose proof (validate_ok c V). destruct ch; cbn [next_cut].
  - apply plakar_good; auto.
  - apply stadia_good; auto.
  - apply ultra_good; auto.
  - apply fnv_good; lia.
  - apply rk_good; lia.
Qed.

Lemma next_local : forall ch c, usable ch c -> local_alg (maxSize c) (next_cut ch c).
Proof.
  intros ch c [V U]. pose proof (validate_ok c V). destruct ch; cbn [next_cut].
  - apply plakar_local; auto.
  - apply stadia_local; auto.
  - apply ultra_local; auto.
  - apply fnv_local; lia.
  - apply rk_local; lia.
Qed.

(** Running [Cutpoints] without a limit. For UltraCDC the slice needs 7 spare
    bytes of capacity and the input must not be empty. *)
Definition runnable (ch : chunker) (spare : nat) (data : list Z) : Prop :=
  ch = Ultra -> 7 <= spare /\ data <> [].

Lemma cut_points_eq : forall ch c spare data, usable ch c -> runnable ch spare data ->
  cut_points ch c spare 0 data = cutpoints (next_cut ch c) 0 data.
Proof.
  intros ch c spare data [V U] R. destruct ch; cbn [cut_points next_cut]; auto.
  destruct (R eq_refl). apply ultra_cutpoints_eq; auto.
Qed.

(** A small valid configuration and inputs for the examples. *)
Definition cfg0 : cfg := mkCfg 64 128 256.
Definition gear0 (b : Z) : Z := if (b =? 0)%Z then 0%Z else (2 ^ 16 * b)%Z.
Definition data0 : list Z := repeat 7%Z 64 ++ [1%Z] ++ repeat 0%Z 100 ++ repeat 1%Z 300.

(** ** C25: partition *)

(** For the FastCDC, FNV and Rabin-Karp chunkers, every input and every valid
    configuration: [Cutpoints] returns, its chunks tile the input, have the
    promised sizes, and concatenate back to the input. *)
Theorem C25_partition : forall ch c spare data,
  ch <> Ultra -> validate c = true ->
  exists cuts, cut_points ch c spare 0 data = Ok cuts /\
    tiles (length data) cuts /\ sized (minSize c) (maxSize c) cuts /\
    concat (pieces 0 cuts data) = data.
Proof.
  intros ch c spare data NU V.
  assert (usable ch c) as U by (split; [auto|tauto]).
  rewrite cut_points_eq by (auto; intro; tauto).
  apply generic_partition. apply next_good; auto.
Qed.
Print Assumptions C25_partition.

Example C25_partition_ex :
  cut_points (Plakar gear0) cfg0 0 0 data0 = Ok [66; 130; 386; 465] /\
  validate cfg0 = true /\ length data0 = 465.
Proof. vm_compute. auto. Qed.

(** UltraCDC, with a configuration that leaves room for one 8-byte window, a
    non-empty input and 7 spare bytes of slice capacity.  Without the spare
    capacity the full statement is false (next theorem). *)
Theorem C25_ultra_partition_partial : forall c spare data,
  validate c = true -> minSize c + 8 <= maxSize c -> 7 <= spare -> data <> [] ->
  exists cuts, cut_points Ultra c spare 0 data = Ok cuts /\
    tiles (length data) cuts /\ sized (minSize c) (maxSize c) cuts /\
    concat (pieces 0 cuts data) = data.
Proof.
  intros c spare data V M S D.
  assert (usable Ultra c) as U by (split; auto).
  rewrite cut_points_eq by (auto; intro; auto).
  apply generic_partition. apply next_good; auto.
Qed.
Print Assumptions C25_ultra_partition_partial.

Definition data1 : list Z := repeat 7%Z 72 ++ repeat 0x55%Z 60 ++ repeat 0xAA%Z 300 ++ [1;2;3]%Z.

Example C25_ultra_partition_ex :
  cut_points Ultra cfg0 7 0 data1 = Ok [128; 384; 435].
Proof. vm_compute. reflexivity. Qed.

(** UltraCDC.Cutpoints panics when what is left is between 1 and 7 bytes longer
    than the minimum and the slice has no spare capacity. *)
Theorem C25_ultra_tail_panics_refuted : forall c spare data,
  validate c = true -> minSize c < length data -> length data + spare < minSize c + 8 ->
  cut_points Ultra c spare 0 data = Panic.
Proof.
  intros c spare data V L S. pose proof (validate_ok c V).
  cbn [cut_points]. unfold ultra_cutpoints.
  destruct (Nat.eqb_spec (minSize c) 0); [lia|]. cbn [ultra_cutpoints_loop].
  destruct (Nat.ltb_spec (length data) (maxSize c)).
  - destruct (Nat.leb_spec (length data) (minSize c)); [lia|].
    destruct (Nat.ltb_spec (length data + spare) (minSize c + 8)); [reflexivity|lia].
  - destruct (Nat.leb_spec (maxSize c) (minSize c)); [lia|].
    destruct (Nat.ltb_spec (length data + spare) (minSize c + 8)); [reflexivity|lia].
Qed.
Print Assumptions C25_ultra_tail_panics_refuted.

Example C25_ultra_tail_panics_ex :
  cut_points Ultra cfg0 0 0 (repeat 7%Z 68) = Panic /\
  cut_points (Plakar gear0) cfg0 0 0 (repeat 7%Z 68) = Ok [68].
Proof. vm_compute. auto. Qed.

(** With a valid configuration whose maximum is less than 8 above its minimum,
    UltraCDC.NextCut returns a chunk longer than the maximum. *)
Theorem C25_ultra_over_max_refuted :
  exists c data cut, validate c = true /\ next_cut Ultra c data = Ok cut /\ maxSize c < cut.
Proof.
  exists (mkCfg 64 65 66), (repeat 0%Z 70), 70. vm_compute. repeat split; auto; lia.
Qed.
Print Assumptions C25_ultra_over_max_refuted.

(** [Cutpoints] is repeated [NextCut]: same cuts from the batch and the
    one-at-a-time interface (for UltraCDC these are two copies of the code). *)
Theorem C25_batch_is_repeated_next : forall ch c spare data,
  usable ch c -> runnable ch spare data -> data <> [] ->
  exists cut rest, next_cut ch c data = Ok cut /\
    cut_points ch c spare 0 data = Ok (cut :: map (Nat.add cut) rest) /\
    (cut < length data -> runnable ch spare (skipn cut data) /\
       cut_points ch c spare 0 (skipn cut data) = Ok rest) /\
    (cut = length data -> rest = []).
Proof.
  intros ch c spare data U R D.
  pose proof (next_good ch c U) as G.
  destruct (cutpoints_steps _ _ _ data G) as (cs & E & ST).
  inversion ST as [|o d cut cs' D' A S]; subst; [congruence|].
  destruct (cutpoints_steps _ _ _ (skipn cut data) G) as (rest & E2 & ST2).
  exists cut, rest. split; [exact A|].
  assert (cs' = map (Nat.add cut) rest) as EC.
  { pose proof (steps_shift _ _ _ _ ST2 (0 + cut)) as SH.
    rewrite (steps_fun _ _ _ _ S _ SH). apply map_ext. intros x. lia. }
  split; [rewrite cut_points_eq by auto; cbn [Nat.add] in E; rewrite E, EC; reflexivity|].
  assert (cut < length data -> runnable ch spare (skipn cut data)) as RR.
  { intros L UU. destruct (R UU). split; auto.
    intro N. apply (f_equal (@length Z)) in N. rewrite skipn_length in N. simpl in N. lia. }
  split.
  - intros L. split; auto. rewrite cut_points_eq by auto. exact E2.
  - intros ->. rewrite skipn_all in ST2. inversion ST2; subst; auto. congruence.
Qed.
Print Assumptions C25_batch_is_repeated_next.

Example C25_batch_is_repeated_next_ex :
  next_cut Ultra cfg0 data1 = Ok 128 /\ next_cut (Plakar gear0) cfg0 data0 = Ok 66.
Proof. vm_compute. auto. Qed.

(** The precomputed table of UltraCDC is the Hamming distance to 0xAA for every
    byte, so the running distance is the distance of the current window. *)
Theorem C25_ultra_table : forall b, (0 <= b < 256)%Z ->
  ham_lookup b = ones8 (Z.lxor b 0xAA).
Proof. exact ham_table_ok. Qed.
Print Assumptions C25_ultra_table.

Example C25_ultra_table_ex : ham_lookup 0x55 = 8%Z /\ ham_lookup 0xAA = 0%Z.
Proof. vm_compute. auto. Qed.

(** A positive [maxPoints] returns that prefix of the cuts: UltraCDC, FNV and
    Rabin-Karp. *)
Theorem C25_max_points : forall ch c spare lim data,
  usable ch c -> runnable ch spare data -> 0 < lim ->
  (ch = Ultra \/ (exists bits, ch = Fnv bits) \/ (exists w m, ch = RabinKarp w m)) ->
  exists cuts, cut_points ch c spare 0 data = Ok cuts /\
               cut_points ch c spare lim data = Ok (firstn lim cuts).
Proof.
  intros ch c spare lim data U R L K.
  pose proof (next_good ch c U) as G.
  rewrite cut_points_eq by auto.
  destruct (generic_limit _ _ _ lim data G L) as (cs & E1 & E2).
  exists cs. split; [exact E1|]. rewrite <- E2.
  destruct K as [->|[[bits ->]|(w & m & ->)]]; cbn [cut_points next_cut]; auto.
  destruct (R eq_refl). destruct U as [V M]. apply ultra_cutpoints_eq; auto.
Qed.
Print Assumptions C25_max_points.

Example C25_max_points_ex :
  cut_points Ultra cfg0 7 2 data1 = Ok [128; 384] /\
  cut_points (Fnv 3) cfg0 0 2 data1 = Ok [71; 137].
Proof. vm_compute. auto. Qed.

(** The FastCDC chunkers ignore [maxPoints], although their documentation
    promises at most that many cuts. *)
Theorem C25_fastcdc_max_points_refuted :
  exists c data, validate c = true /\
    cut_points (Plakar gear0) c 0 1 data = Ok [66; 130; 386; 465] /\
    exists cuts, cut_points (Stadia gear0) c 0 1 data = Ok cuts /\ 1 < length cuts.
Proof.
  exists cfg0, data0. split; [reflexivity|]. split; [vm_compute; reflexivity|].
  eexists. split; [vm_compute; reflexivity|]. cbn [length]. lia.
Qed.
Print Assumptions C25_fastcdc_max_points_refuted.

(** ** C26: locality *)

(** The next cut depends only on the first [MaxSize] bytes. *)
Theorem C26_next_cut_local : forall ch c d1 d2,
  usable ch c -> firstn (maxSize c) d1 = firstn (maxSize c) d2 ->
  next_cut ch c d1 = next_cut ch c d2.
Proof.
  intros ch c d1 d2 U E. rewrite (next_local ch c U d1), (next_local ch c U d2), E. reflexivity.
Qed.
Print Assumptions C26_next_cut_local.

Example C26_next_cut_local_ex :
  firstn (maxSize cfg0) data0 = firstn (maxSize cfg0) (firstn 256 data0 ++ [9;9;9]%Z) /\
  next_cut (Plakar gear0) cfg0 (firstn 256 data0 ++ [9;9;9]%Z) = Ok 66.
Proof. vm_compute. auto. Qed.

(** Two inputs with the same tail: once both have a cut at the start of the
    common tail, they have the same cuts from there on. *)
Theorem C26_shared_suffix : forall ch c spare a b s cuts1 cuts2,
  usable ch c -> runnable ch spare (a ++ s) -> runnable ch spare (b ++ s) ->
  cut_points ch c spare 0 (a ++ s) = Ok cuts1 ->
  cut_points ch c spare 0 (b ++ s) = Ok cuts2 ->
  In (length a) (bounds cuts1) -> In (length b) (bounds cuts2) ->
  forall x, 0 < x -> In (length a + x) cuts1 <-> In (length b + x) cuts2.
Proof.
  intros ch c spare a b s cuts1 cuts2 U R1 R2 E1 E2 I1 I2.
  rewrite cut_points_eq in E1, E2 by auto.
  apply (resync (minSize c) (maxSize c) (next_cut ch c) a b s); auto.
  apply next_good; auto.
Qed.
Print Assumptions C26_shared_suffix.

Example C26_shared_suffix_ex :
  let s := skipn 66 data0 in
  let a := firstn 66 data0 in
  let b := repeat 3%Z 10 ++ repeat 5%Z 246 in
  cut_points (Plakar gear0) cfg0 0 0 (a ++ s) = Ok [66; 130; 386; 465] /\
  cut_points (Plakar gear0) cfg0 0 0 (b ++ s) = Ok [256; 320; 576; 655].
Proof. vm_compute. auto. Qed.

(** Two inputs that agree on their first [k] bytes have the same chunk [j]
    whenever that chunk starts at least [MaxSize] before [k]: a change only
    affects chunks near or after it. *)
Theorem C26_shared_prefix : forall ch c spare d1 d2 cuts1 cuts2 k j,
  usable ch c -> runnable ch spare d1 -> runnable ch spare d2 ->
  cut_points ch c spare 0 d1 = Ok cuts1 -> cut_points ch c spare 0 d2 = Ok cuts2 ->
  firstn k d1 = firstn k d2 -> k <= length d1 -> k <= length d2 ->
  j < length cuts1 -> beg cuts1 j + maxSize c <= k ->
  j < length cuts2 /\ fin cuts1 j = fin cuts2 j.
Proof.
  intros ch c spare d1 d2 cuts1 cuts2 k j U R1 R2 E1 E2 F K1 K2 J B.
  rewrite cut_points_eq in E1, E2 by auto.
  pose proof (next_good ch c U) as G.
  destruct (cutpoints_steps _ _ _ d1 G) as (c1 & F1 & S1).
  destruct (cutpoints_steps _ _ _ d2 G) as (c2 & F2 & S2).
  assert (c1 = cuts1) by congruence. assert (c2 = cuts2) by congruence. subst c1 c2.
  destruct U as [V UU]. pose proof (validate_ok c V).
  destruct (steps_prefix _ _ _ G (next_local ch c (conj V UU)) 0 d1 cuts1 S1 d2 cuts2 S2 k F K1 K2 j J)
    as [N L].
  - exact B.
  - lia.
  - split; auto.
Qed.
Print Assumptions C26_shared_prefix.

Example C26_shared_prefix_ex :
  let d2 := firstn 400 data0 ++ repeat 9%Z 50 in
  firstn 400 data0 = firstn 400 d2 /\
  cut_points (Plakar gear0) cfg0 0 0 d2 = Ok [66; 130; 386; 450] /\
  beg [66; 130; 386; 465] 2 + maxSize cfg0 <= 400.
Proof. vm_compute. split; [auto|split; [auto|lia]]. Qed.

(** A cut found before the end of the available data is final: reading more
    data does not move it (FastCDC Plakar and UltraCDC). This is what makes
    chunking a file through a bounded buffer sound. *)
Theorem C26_cut_before_end_is_final : forall ch c d e cut,
  usable ch c -> ((exists gear, ch = Plakar gear) \/ ch = Ultra) ->
  next_cut ch c d = Ok cut -> cut < length d ->
  next_cut ch c (d ++ e) = Ok cut.
Proof.
  intros ch c d e cut [V U] [[g ->]| ->] E L; cbn [next_cut] in *.
  - apply plakar_stable; auto.
  - apply ultra_stable; auto.
Qed.
Print Assumptions C26_cut_before_end_is_final.

Example C26_cut_before_end_is_final_ex :
  next_cut (Plakar gear0) cfg0 (firstn 80 data0) = Ok 66 /\
  next_cut (Plakar gear0) cfg0 data0 = Ok 66.
Proof. vm_compute. auto. Qed.

(** It fails for FastCDC Stadia: a regression point chosen because the data
    ended can move when more data arrives. *)
Definition gearS (b : Z) : Z := (b * 0x9E3779B97F4A7C15 mod 2 ^ 64)%Z.
Definition dataS : list Z := map (fun k => Z.of_nat (k * k mod 251)) (seq 0 256).

Theorem C26_stadia_cut_moves_refuted :
  exists gear c d e cut cut', validate c = true /\
    next_cut (Stadia gear) c d = Ok cut /\ cut < length d /\
    next_cut (Stadia gear) c (d ++ e) = Ok cut' /\ cut <> cut'.
Proof.
  exists gearS, cfg0, (firstn 100 dataS), (skipn 100 dataS).
  eexists. eexists. split; [reflexivity|]. split; [vm_compute; reflexivity|].
  split; [vm_compute; lia|]. split; [vm_compute; reflexivity|]. vm_compute. congruence.
Qed.
Print Assumptions C26_stadia_cut_moves_refuted.

(** ** C40: Padme padding *)

Lemma pow_pz : forall n, (0 < n < 2 ^ 62)%Z -> (0 < 2 ^ padme_z n)%Z.
Proof. intros n N. pose proof (padme_z_range n N). apply Z.pow_pos_nonneg; lia. Qed.

Lemma roundup : forall n m, (0 < m)%Z -> (0 <= n)%Z ->
  (n <= m * ((n + m - 1) / m) < n + m)%Z.
Proof.
  intros n m M N. pose proof (Z.div_mod (n + m - 1) m ltac:(lia)).
  pose proof (Z.mod_pos_bound (n + m - 1) m M). lia.
Qed.

Lemma padme_next_pow : forall n, (0 < n < 2 ^ 62)%Z ->
  (2 ^ padme_z n * ((n + 2 ^ padme_z n - 1) / 2 ^ padme_z n) <= 2 ^ (Z.log2 n + 1))%Z.
Proof.
  intros n N. pose proof (padme_z_range n N) as R. pose proof (pow_pz n N) as P.
  set (z := padme_z n) in *.
  pose proof (Z.log2_spec n ltac:(lia)) as [L1 L2].
  replace (2 ^ (Z.log2 n + 1))%Z with (2 ^ z * 2 ^ (Z.log2 n + 1 - z))%Z
    by (rewrite <- Z.pow_add_r by lia; f_equal; lia).
  apply Z.mul_le_mono_nonneg_l; [lia|].
  apply Z.lt_succ_r. apply Z.div_lt_upper_bound; [lia|].
  replace (2 ^ z * Z.succ (2 ^ (Z.log2 n + 1 - z)))%Z
    with (2 ^ z * 2 ^ (Z.log2 n + 1 - z) + 2 ^ z)%Z by lia.
  rewrite <- Z.pow_add_r by lia. replace (z + (Z.log2 n + 1 - z))%Z with (Z.succ (Z.log2 n)) by lia.
  lia.
Qed.

(** For every positive length below 2^62: padding is returned, it is not
    negative, and it costs less than one part in [log2 n] of the input. *)
Theorem C40_padme_cost : forall n, (0 < n < 2 ^ 62)%Z ->
  exists p, padme n = Ok p /\ (0 <= p)%Z /\ (p * Z.log2 n < n)%Z.
Proof.
  intros n N. rewrite padme_value by auto. eexists. split; [reflexivity|].
  pose proof (padme_z_range n N) as R. pose proof (pow_pz n N) as P.
  pose proof (roundup n (2 ^ padme_z n) P ltac:(lia)) as B.
  split; [lia|].
  set (p := (2 ^ padme_z n * ((n + 2 ^ padme_z n - 1) / 2 ^ padme_z n) - n)%Z) in *.
  assert (0 <= p < 2 ^ padme_z n)%Z as PB by lia.
  destruct (Z.eqb_spec n 1) as [->|NE].
  { change (Z.log2 1) with 0%Z. lia. }
  assert (1 <= Z.log2 n)%Z by (change 1%Z with (Z.log2 2) at 1; apply Z.log2_le_mono; lia).
  assert (2 ^ padme_z n * Z.log2 n < 2 ^ Z.log2 n)%Z as K.
  { unfold padme_z. rewrite (proj2 (Z.eqb_neq n 1) NE).
    set (x := Z.log2 n) in *.
    pose proof (Z.log2_spec x ltac:(lia)) as [L1 L2].
    pose proof (log2_lt x ltac:(lia)). pose proof (Z.log2_nonneg x).
    replace (2 ^ x)%Z with (2 ^ (x - (Z.log2 x + 1)) * 2 ^ (Z.log2 x + 1))%Z
      by (rewrite <- Z.pow_add_r by lia; f_equal; lia).
    apply Z.mul_lt_mono_pos_l; [apply Z.pow_pos_nonneg; lia|].
    replace (Z.log2 x + 1)%Z with (Z.succ (Z.log2 x)) by lia. lia. }
  pose proof (Z.log2_spec n ltac:(lia)) as [L1 L2]. nia.
Qed.
Print Assumptions C40_padme_cost.

Example C40_padme_cost_ex : padme 1000001 = Ok 15807%Z /\ padme 1 = Ok 0%Z.
Proof. vm_compute. auto. Qed.

(** A padded length needs no further padding. *)
Theorem C40_padme_idempotent : forall n p, (0 < n < 2 ^ 61)%Z ->
  padme n = Ok p -> padme (n + p) = Ok 0%Z.
Proof.
  intros n p N E.
  assert (0 < n < 2 ^ 62)%Z as N' by (assert (2 ^ 61 < 2 ^ 62)%Z by reflexivity; lia).
  pose proof (padme_next_pow n N') as NP.
  rewrite padme_value in E by auto. injection E as E.
  pose proof (padme_z_range n N') as R. pose proof (pow_pz n N') as P.
  pose proof (roundup n (2 ^ padme_z n) P ltac:(lia)) as B.
  set (q := ((n + 2 ^ padme_z n - 1) / 2 ^ padme_z n)%Z) in *.
  assert (n + p = 2 ^ padme_z n * q)%Z as L by lia.
  pose proof (Z.log2_spec n ltac:(lia)) as [L1 L2].
  assert (Z.log2 n < 61)%Z by (apply Z.log2_lt_pow2; lia).
  assert (2 ^ (Z.log2 n + 1) <= 2 ^ 61)%Z by (apply Z.pow_le_mono_r; lia).
  assert (2 ^ 61 < 2 ^ 62)%Z by reflexivity.
  assert (0 < n + p < 2 ^ 62)%Z as NP' by lia.
  rewrite padme_value by auto. f_equal.
  pose proof (pow_pz (n + p) NP') as P2.
  enough (exists k, n + p = 2 ^ padme_z (n + p) * k)%Z as (k & K).
  { set (z2 := padme_z (n + p)) in *.
    replace (n + p + 2 ^ z2 - 1)%Z with ((2 ^ z2 - 1) + k * 2 ^ z2)%Z by lia.
    rewrite Z.div_add by lia. rewrite Z.div_small by lia. lia. }
  destruct (Z.eq_dec (n + p) (2 ^ (Z.log2 n + 1))) as [PW|NPW].
  - pose proof (padme_z_range (n + p) NP') as R2.
    exists (2 ^ (Z.log2 n + 1 - padme_z (n + p)))%Z.
    assert (Z.log2 (n + p) = Z.log2 n + 1)%Z as LG.
    { rewrite PW. apply Z.log2_pow2. pose proof (Z.log2_nonneg n). lia. }
    rewrite PW at 1. rewrite <- Z.pow_add_r by lia. f_equal. lia.
  - assert (Z.log2 (n + p) = Z.log2 n) as LG.
    { apply Z.log2_unique; [apply Z.log2_nonneg|].
      replace (Z.succ (Z.log2 n)) with (Z.log2 n + 1)%Z in * by lia. lia. }
    exists q. rewrite L at 1. f_equal. f_equal. unfold padme_z. rewrite LG.
    destruct (Z.eqb_spec n 1) as [N1|N1]; destruct (Z.eqb_spec (n + p) 1); try lia.
    exfalso. rewrite N1 in LG at 2. change (Z.log2 1) with 0%Z in LG.
    assert (1 <= Z.log2 (n + p))%Z
      by (change 1%Z with (Z.log2 2) at 1; apply Z.log2_le_mono; lia).
    lia.
Qed.
Print Assumptions C40_padme_idempotent.

Example C40_padme_idempotent_ex : padme (1000001 + 15807) = Ok 0%Z.
Proof. vm_compute. auto. Qed.

(** A longer input never gets a shorter padded length. *)
Theorem C40_padme_monotone : forall n m p q, (0 < n <= m)%Z -> (m < 2 ^ 62)%Z ->
  padme n = Ok p -> padme m = Ok q -> (n + p <= m + q)%Z.
Proof.
  intros n m p q N M E F.
  assert (0 < n < 2 ^ 62)%Z as N1 by lia. assert (0 < m < 2 ^ 62)%Z as M1 by lia.
  pose proof (padme_next_pow n N1) as NP.
  rewrite padme_value in E by auto. rewrite padme_value in F by auto.
  injection E as E. injection F as F.
  pose proof (pow_pz n N1) as PN. pose proof (pow_pz m M1) as PM.
  pose proof (roundup m (2 ^ padme_z m) PM ltac:(lia)) as BM.
  pose proof (Z.log2_spec n ltac:(lia)) as [L1 L2].
  pose proof (Z.log2_spec m ltac:(lia)) as [L3 L4].
  pose proof (Z.log2_le_mono n m ltac:(lia)) as LL. pose proof (Z.log2_nonneg n).
  destruct (Z.eq_dec (Z.log2 n) (Z.log2 m)) as [EQ|NE].
  - assert (padme_z n = padme_z m) as EZ.
    { unfold padme_z. rewrite EQ.
      destruct (Z.eqb_spec n 1) as [->|A]; destruct (Z.eqb_spec m 1) as [->|B]; auto; try lia.
      exfalso. change (Z.log2 1) with 0%Z in EQ.
      assert (1 <= Z.log2 m)%Z by (change 1%Z with (Z.log2 2) at 1; apply Z.log2_le_mono; lia). lia. }
    rewrite EZ in *.
    assert ((n + 2 ^ padme_z m - 1) / 2 ^ padme_z m <= (m + 2 ^ padme_z m - 1) / 2 ^ padme_z m)%Z
      by (apply Z.div_le_mono; lia).
    nia.
  - assert (2 ^ (Z.log2 n + 1) <= 2 ^ Z.log2 m)%Z by (apply Z.pow_le_mono_r; lia). lia.
Qed.
Print Assumptions C40_padme_monotone.

Example C40_padme_monotone_ex : padme 1000001 = Ok 15807%Z /\ padme 1100000 = Ok 14112%Z.
Proof. vm_compute. auto. Qed.

(** Padding an empty message panics (a negative shift count). *)
Theorem C40_padme_zero_refuted : padme 0 = Panic.
Proof. vm_compute. reflexivity. Qed.
Print Assumptions C40_padme_zero_refuted.
