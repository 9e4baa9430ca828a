(** Proofs about the parallel scanner and the zero span search. *)
From Coq Require Import List ZArith Lia Bool.
From Verif Require Import Base Cdc_Model Cdc_Spec Cdc_Proofs Sync_Model Sync_Spec Sync_Proofs
  Scan_Model Scan_Spec Scan_Proofs.
Import ListNotations.
Open Scope nat_scope.

(** ** LongestZeroSpan *)

Definition zrun (b : list Z) (j m : nat) : Prop :=
  j + m <= length b /\ forall k, j <= k < j + m -> nth k b 1%Z = 0%Z.

Lemma zrun_zero_run : forall b j m, zrun b j m <-> zero_run b j m.
Proof.
  intros b j m. unfold zrun, zero_run. split; intros [L H]; (split; [auto|]).
  - apply nth_ext with (d := 1%Z) (d' := 1%Z).
    + rewrite slen. unfold zeros. rewrite repeat_length. lia.
    + intros n N. rewrite slen in N. unfold slice, zeros.
      rewrite <- (firstn_skipn (j + m - j) (skipn j b)) at 1.
      assert (E : nth n (firstn (j + m - j) (skipn j b)) 1%Z = nth (j + n) b 1%Z).
      { rewrite <- (firstn_skipn j b) at 2. rewrite app_nth2; rewrite firstn_length; [|lia].
        replace (j + n - Nat.min j (length b)) with n by lia.
        rewrite <- (firstn_skipn (j + m - j) (skipn j b)) at 2.
        rewrite app_nth1; [reflexivity|]. rewrite firstn_length, skipn_length. lia. }
      rewrite firstn_skipn, E, H by lia.
      symmetry. apply nth_error_nth. rewrite nth_error_repeat; auto. lia.
  - intros k K.
    assert (E : nth (k - j) (slice b j (j + m)) 1%Z = nth k b 1%Z).
    { unfold slice. rewrite <- (firstn_skipn j b) at 2. rewrite app_nth2; rewrite firstn_length; [|lia].
      replace (k - Nat.min j (length b)) with (k - j) by lia.
      rewrite <- (firstn_skipn (j + m - j) (skipn j b)) at 2.
      rewrite app_nth1; [reflexivity|]. rewrite firstn_length, skipn_length. lia. }
    rewrite <- E, H. apply nth_error_nth. unfold zeros. rewrite nth_error_repeat; auto. lia.
Qed.

Lemma lzs_inv : forall b s i cs cl ms ml, s = skipn i b -> i <= length b ->
  cl <= i -> (0 < cl -> cs = i - cl) -> zrun b (i - cl) cl -> zrun b ms ml -> ms + ml <= i ->
  (ml = 0 -> ms = 0) -> ms <= i - cl ->
  (forall j m, zrun b j m -> j + m = i -> m <= cl) ->
  (forall j m, zrun b j m -> 0 < m -> j + m <= i -> i - cl <= j \/ m < ml \/ (m = ml /\ ms <= j)) ->
  let '(rs, rl) := lzsLoop s i cs cl ms ml in
  zrun b rs rl /\ (rl = 0 -> rs = 0) /\
  forall j m, zrun b j m -> m <= rl /\ (0 < m -> m = rl -> rs <= j).
Proof.
  intros b. induction s as [|x s IH]; intros i cs cl ms ml ES IL CL CS ZC ZM MI M0 MSI TR OLD; cbn [lzsLoop].
  - assert (i = length b).
    { assert (K := skipn_length i b). rewrite <- ES in K. cbn in K. lia. }
    destruct (Nat.ltb_spec ml cl) as [LT|GE].
    + rewrite CS by lia. split; [auto|]. split; [lia|]. intros j m Z0.
      destruct (Nat.eq_dec m 0) as [->|NZ]; [lia|].
      assert (Z1 := proj1 Z0). assert (AA := OLD j m Z0). lia.
    + split; [auto|]. split; [auto|]. intros j m Z0.
      destruct (Nat.eq_dec m 0) as [->|NZ]; [lia|].
      assert (Z1 := proj1 Z0). assert (AA := OLD j m Z0). lia.
  - assert (i < length b).
    { assert (K := skipn_length i b). rewrite <- ES in K. cbn in K. lia. }
    assert (NX : nth i b 1%Z = x).
    { rewrite <- (firstn_skipn i b). rewrite app_nth2; rewrite firstn_length; [|lia].
      replace (i - Nat.min i (length b)) with 0 by lia. rewrite <- ES. reflexivity. }
    assert (ES' : s = skipn (S i) b).
    { change (S i) with (1 + i). rewrite <- skipn_skipn. rewrite <- ES. reflexivity. }
    destruct (Z.eqb_spec x 0) as [X0|XN].
    + apply IH; auto; try lia.
      * destruct (Nat.eqb_spec cl 0); lia.
      * replace (S i - S cl) with (i - cl) by lia. destruct ZC as [Z1 Z2]. split; [lia|].
        intros k K. destruct (Nat.eq_dec k i) as [->|]; [congruence|]. apply Z2. lia.
      * intros j m [Z1 Z2] E. destruct m as [|m]; [lia|].
        assert (m <= cl); [|lia]. apply (TR j m); [|lia]. split; [lia|]. intros k K. apply Z2. lia.
      * intros j m [Z1 Z2] M E. replace (S i - S cl) with (i - cl) by lia.
        destruct (Nat.eq_dec (j + m) (S i)) as [EE|NE].
        -- left. destruct m as [|m]; [lia|].
           assert (m <= cl); [|lia]. apply (TR j m); [|lia]. split; [lia|]. intros k K. apply Z2. lia.
        -- apply OLD; [split; auto|lia|lia].
    + assert (NOEND : forall j m, zrun b j m -> j + m = S i -> m <= 0).
      { intros j m [Z1 Z2] E. destruct m as [|m]; [lia|]. exfalso. apply XN.
        rewrite <- NX. apply Z2. lia. }
      assert (ZN : zrun b (S i - 0) 0) by (split; [lia|intros; lia]).
      destruct (Nat.ltb_spec ml cl) as [LT|GE].
      * rewrite CS by lia. apply IH; auto; try lia.
        intros j m Z0 M E.
        destruct (Nat.eq_dec (j + m) (S i)) as [EE|NE]; [apply (NOEND j m Z0) in EE; lia|].
        right. destruct (OLD j m Z0) as [A|[A|A]]; lia.
      * apply IH; auto; try lia.
        intros j m Z0 M E.
        destruct (Nat.eq_dec (j + m) (S i)) as [EE|NE]; [apply (NOEND j m Z0) in EE; lia|].
        right. destruct (OLD j m Z0) as [A|[A|A]]; lia.
Qed.

Lemma longest_ok : forall b rs rl, longestZeroSpan b = (rs, rl) ->
  zrun b rs rl /\ (rl = 0 -> rs = 0) /\
  forall j m, zrun b j m -> m <= rl /\ (0 < m -> m = rl -> rs <= j).
Proof.
  intros b rs rl E. unfold longestZeroSpan in E.
  assert (Z0 : zrun b 0 0) by (split; [lia|intros; lia]).
  assert (K := lzs_inv b b 0 0 0 0 0 eq_refl (Nat.le_0_l _) (Nat.le_refl _)).
  rewrite E in K. apply K; auto; try lia.
Qed.

Lemma lzs_cs : forall b i c1 c2 ms ml, lzsLoop b i c1 0 ms ml = lzsLoop b i c2 0 ms ml.
Proof.
  induction b as [|x b IH]; intros; cbn [lzsLoop Nat.ltb Nat.leb Nat.eqb]; [reflexivity|].
  destruct (x =? 0)%Z; [reflexivity|]. apply IH.
Qed.

Lemma lzs_zeros : forall n r i cs cl ms ml, 0 < n ->
  lzsLoop (zeros n ++ r) i cs cl ms ml = lzsLoop r (i + n) (if cl =? 0 then i else cs) (cl + n) ms ml.
Proof.
  induction n as [|n IH]; intros r i cs cl ms ml N; [lia|].
  cbn [zeros repeat app lzsLoop Z.eqb]. fold (zeros n).
  destruct n as [|n].
  - cbn [zeros repeat app]. f_equal; lia.
  - rewrite IH by lia. cbn [Nat.eqb]. f_equal; lia.
Qed.

Lemma leading_split : forall b, b = zeros (leadingZeros b) ++ skipn (leadingZeros b) b /\
  match skipn (leadingZeros b) b with [] => True | y :: _ => y <> 0%Z end.
Proof.
  induction b as [|x b IH]; cbn [leadingZeros]; [split; [reflexivity|exact I]|].
  destruct IH as [IH1 IH2].
  destruct (Z.eqb_spec x 0) as [->|N].
  - cbn [skipn zeros repeat app]. split; [f_equal; exact IH1|exact IH2].
  - cbn. auto.
Qed.

Lemma leading_all : forall b, allZero b = true -> leadingZeros b = length b.
Proof.
  unfold allZero. induction b as [|x b IH]; intros H; [reflexivity|].
  cbn [forallb] in H. rewrite andb_true_iff in H. destruct H as [H1 H2]. apply Z.eqb_eq in H1.
  cbn [leadingZeros length]. rewrite <- H1. cbn [Z.eqb]. rewrite IH; auto.
Qed.

Lemma leading_app : forall a b, leadingZeros (a ++ b) =
  if allZero a then length a + leadingZeros b else leadingZeros a.
Proof.
  unfold allZero. induction a as [|x a IH]; intros b; [reflexivity|].
  cbn [app leadingZeros forallb length]. rewrite (Z.eqb_sym 0 x).
  destruct (x =? 0)%Z; cbn [andb]; [|reflexivity].
  rewrite IH. destruct (forallb (Z.eqb 0) a); reflexivity.
Qed.

Lemma simdWidth_pos : forall a1 a2 n, 0 < n -> 0 < simdWidth a1 a2 n <= n.
Proof.
  intros a1 a2 n N. unfold simdWidth.
  destruct (Nat.leb_spec 64 n), a1, (Nat.leb_spec 32 n), a2, (Nat.leb_spec 16 n); cbn [andb]; lia.
Qed.

Lemma simdRun_ok : forall a1 a2 fuel b, length b < fuel -> simdRun a1 a2 fuel b = leadingZeros b.
Proof.
  induction fuel as [|fu IH]; intros b L; [lia|].
  destruct b as [|x b]; [reflexivity|].
  cbn [simdRun].
  destruct (simdWidth_pos a1 a2 (length (x :: b))) as [W1 W2]; [cbn; lia|].
  set (w := simdWidth a1 a2 (length (x :: b))) in *.
  rewrite <- (firstn_skipn w (x :: b)) at 4. rewrite leading_app.
  destruct (allZero (firstn w (x :: b))) eqn:A; [|reflexivity].
  rewrite firstn_length, Nat.min_l by lia. f_equal. apply IH. rewrite skipn_length. lia.
Qed.

Lemma simd_ok : forall a1 a2 fuel b i cs ms ml, length b < fuel ->
  simdLoop a1 a2 fuel b i ms ml = lzsLoop b i cs 0 ms ml.
Proof.
  induction fuel as [|fu IH]; intros b i cs ms ml L; [lia|].
  destruct b as [|x b].
  - cbn [simdLoop lzsLoop]. destruct (Nat.ltb_spec ml 0); [lia|reflexivity].
  - cbn [simdLoop]. destruct (Z.eqb_spec x 0) as [X|N].
    + rewrite simdRun_ok by (cbn; lia).
      destruct (leading_split (x :: b)) as [SP NZ].
      set (j := leadingZeros (x :: b)) in *.
      assert (J : 0 < j). { unfold j. cbn [leadingZeros]. rewrite X. cbn. lia. }
      assert (RL : length (skipn j (x :: b)) < fu) by (rewrite skipn_length; cbn [length] in *; lia).
      rewrite (IH _ _ 0) by exact RL. rewrite (IH _ _ 0) by exact RL.
      rewrite SP at 3. rewrite lzs_zeros by exact J. cbn [Nat.eqb Nat.add].
      destruct (skipn j (x :: b)) as [|y r]; cbn [lzsLoop].
      * destruct (Nat.ltb_spec ml j) as [A|A].
        -- destruct (Nat.ltb_spec j 0); [lia|reflexivity].
        -- destruct (Nat.ltb_spec ml 0); [lia|reflexivity].
      * destruct (Z.eqb_spec y 0); [congruence|].
        destruct (Nat.ltb_spec ml j) as [A|A].
        -- destruct (Nat.ltb_spec j 0); [lia|]. apply lzs_cs.
        -- destruct (Nat.ltb_spec ml 0); [lia|]. apply lzs_cs.
    + cbn [lzsLoop]. destruct (Z.eqb_spec x 0); [congruence|].
      destruct (Nat.ltb_spec ml 0); [lia|]. apply IH. cbn [length] in L. lia.
Qed.

Lemma simd_agrees : forall a1 a2 b, simdLongestZeroSpan a1 a2 b = longestZeroSpan b.
Proof. intros. unfold simdLongestZeroSpan, longestZeroSpan. apply simd_ok. lia. Qed.

(** ** ChunkFile2 *)

Section Par.
Variables (f : list Z) (min max : nat) (alg : list Z -> res nat) (hsh : list Z -> Z) (seg : nat).
Hypothesis G : good_alg min max alg.
Hypothesis MP : 0 < min.
Hypothesis MM : 2 * min <= max.
Hypothesis SM : max <= seg.
Let sz := length f.

(** Candidates that follow [p], without gaps over [max]. *)
Fixpoint chain (p : nat) (cands : list (nat * bool)) (fin : nat) : Prop :=
  match cands with
  | [] => p <= fin /\ fin < p + min
  | (c, r) :: cs => r = false /\ p < c /\ c <= p + max /\ c <= fin /\ chain c cs fin
  end.

Lemma candLoop_ok : forall fuel d off, length d < fuel ->
  exists cands, candLoop alg min fuel d off = Ok cands /\ chain off cands (off + length d).
Proof.
  induction fuel as [|fu IH]; intros d off L; [lia|]. cbn [candLoop].
  destruct (Nat.ltb_spec (length d) min) as [LT|GE].
  - exists []. split; [auto|]. cbn. lia.
  - destruct (G d) as (c & A & C & CL & CM & _).
    { destruct d; [cbn in GE; lia|discriminate]. }
    rewrite A. cbn [bind].
    destruct (IH (skipn c d) (off + c)) as (r & E & CH); [rewrite skipn_length; lia|].
    rewrite E. cbn [bind]. exists ((off + c, false) :: r). split; [auto|].
    rewrite skipn_length in CH. replace (off + c + (length d - c)) with (off + length d) in CH by lia.
    cbn [chain]. repeat split; auto; lia.
Qed.

(** The cuts chosen: each step is at most [max], or zeros. *)
Fixpoint picked (prev : nat) (new : list nat) (fin : nat) : Prop :=
  match new with
  | [] => prev = fin
  | c :: r => prev < c /\ (c - prev <= max \/ slice f prev c = zeros (c - prev)) /\ picked c r fin
  end.

Lemma picked_app : forall a p q b r, picked p a q -> picked q b r -> picked p (a ++ b) r.
Proof.
  induction a as [|c a IH]; intros p q b r H1 H2; cbn in *; [subst; auto|].
  destruct H1 as (A & B & C). split; [auto|]. split; [auto|]. eapply IH; eauto.
Qed.

Lemma picked_incr : forall a p q, picked p a q -> incr p a q.
Proof. induction a as [|c a IH]; intros p q H; cbn in *; [auto|]. destruct H as (A & _ & C). auto. Qed.

Lemma last_app1 : forall (a : list nat) x d, last (a ++ [x]) d = x.
Proof. intros. apply last_last. Qed.

Lemma appendCut_ok : forall cuts prev c, (cuts = [] \/ last cuts 0 = prev) -> prev < c ->
  appendCut cuts c = cuts ++ [c].
Proof.
  intros cuts prev c H L. unfold appendCut. destruct cuts as [|x cuts]; [reflexivity|].
  destruct H as [H|H]; [discriminate|]. rewrite H.
  destruct (Nat.eqb_spec prev c); [lia|reflexivity].
Qed.

Lemma selectCuts_ok : forall cands p fin endx prev cuts, chain p cands fin -> p < prev + min ->
  (cuts = [] \/ last cuts 0 = prev) ->
  exists new prev' crossed,
    selectCuts min max endx cands prev cuts = (cuts ++ new, prev', crossed) /\
    picked prev new prev' /\ (prev' = prev \/ prev' <= fin) /\
    (if crossed then endx <= prev' /\ prev' <= fin
     else fin + 2 <= prev' + 2 * min /\ (prev' = prev \/ prev' < endx)).
Proof.
  induction cands as [|[c r] cs IH]; intros p fin endx prev cuts CH LAG CU; cbn [selectCuts].
  - exists [], prev, false. rewrite app_nil_r. cbn in CH. split; [auto|]. split; [reflexivity|].
    split; [auto|]. split; [lia|auto].
  - cbn [chain] in CH. destruct CH as (-> & C1 & C2 & C3 & CH). cbn [negb andb].
    destruct (Nat.leb_spec c prev) as [LE|GT]; [apply (IH c fin); auto; lia|].
    destruct (Nat.ltb_spec (c - prev) min) as [SH|LO]; [apply (IH c fin); auto; lia|].
    set (cut := if max <=? c - prev then prev + max else c).
    assert (CUT : prev < cut /\ cut - prev <= max /\ cut <= c /\ c < cut + min).
    { unfold cut. destruct (Nat.leb_spec max (c - prev)); lia. }
    rewrite (appendCut_ok cuts prev cut CU) by lia.
    destruct (Nat.leb_spec endx cut) as [CR|NC].
    + exists [cut], cut, true. split; [reflexivity|]. split; [cbn; split; [lia|]; split; [lia|auto]|].
      split; [lia|]. lia.
    + destruct (IH c fin endx cut (cuts ++ [cut])) as (new & prev' & crossed & E & P & F & K); auto; try lia.
      { right. apply last_app1. }
      exists (cut :: new), prev', crossed. rewrite E.
      split; [rewrite <- app_assoc; reflexivity|].
      split; [cbn; split; [lia|]; split; [lia|auto]|]. split; [lia|].
      destruct crossed; [auto|]. lia.
Qed.

(** What the candidates of a job satisfy. *)
Definition seek (j : job) : nat := jBeg j - Nat.min (2 * max) (jBeg j).
Definition stop (j : job) : nat :=
  if jLast j then jEndx j else if sz <? jEndx j + max then sz else jEndx j + max.

Definition candOk (j : job) (cands : list (nat * bool)) : Prop :=
  match cands with
  | (c, true) :: cs => seek j < c /\ c <= stop j /\ slice f (seek j) c = zeros (c - seek j) /\ chain c cs (stop j)
  | _ => chain (seek j) cands (stop j)
  end.

Lemma candidates_ok : forall j, jBeg j < jEndx j -> jEndx j <= sz ->
  exists cands, candidates alg min max f j = Ok cands /\ candOk j cands.
Proof.
  intros j B E. unfold candidates. fold (seek j). fold sz. fold (stop j). rewrite bytesOf_slice.
  assert (SB : seek j <= jBeg j) by (unfold seek; lia).
  assert (SE : jEndx j <= stop j /\ stop j <= sz).
  { unfold stop. destruct (jLast j); [lia|]. destruct (Nat.ltb_spec sz (jEndx j + max)); lia. }
  assert (LD : length (slice f (seek j) (stop j)) = stop j - seek j) by (rewrite slen; unfold sz in *; lia).
  destruct (longestZeroSpan (slice f (seek j) (stop j))) as [b0 n0] eqn:LZ.
  destruct (longest_ok _ _ _ LZ) as (ZR & _ & _).
  destruct ((b0 =? 0) && (64 <=? n0)) eqn:C.
  - rewrite andb_true_iff, Nat.eqb_eq, Nat.leb_le in C. destruct C as [-> N].
    destruct (candLoop_ok (S (length (slice f (seek j) (stop j)))) (skipn n0 (slice f (seek j) (stop j))) (seek j + n0))
      as (r & ER & CH).
    { rewrite skipn_length. lia. }
    rewrite ER. cbn [bind]. eexists. split; [reflexivity|]. cbn [candOk].
    apply zrun_zero_run in ZR. destruct ZR as [Z1 Z2]. cbn [Nat.add] in *.
    rewrite LD in Z1. rewrite skipn_length, LD in CH.
    replace (seek j + n0 + (stop j - seek j - n0)) with (stop j) in CH by lia.
    split; [lia|]. split; [lia|]. split; [|exact CH].
    replace (seek j + n0 - seek j) with n0 by lia. rewrite <- Z2.
    unfold slice at 2. rewrite Nat.sub_0_r. cbn [skipn]. rewrite slice_firstn by lia. reflexivity.
  - destruct (candLoop_ok (S (length (slice f (seek j) (stop j)))) (slice f (seek j) (stop j)) (seek j))
      as (r & ER & CH); [lia|].
    rewrite ER. eexists. split; [reflexivity|]. rewrite LD in CH.
    replace (seek j + (stop j - seek j)) with (stop j) in CH by lia.
    unfold candOk. destruct r as [|[c [|]] r]; auto.
    exfalso. cbn in CH. destruct CH as (X & _). discriminate X.
Qed.

Lemma select_job : forall j cands prev cuts, candOk j cands -> seek j <= prev ->
  (cuts = [] \/ last cuts 0 = prev) ->
  exists new prev' crossed,
    selectCuts min max (jEndx j) cands prev cuts = (cuts ++ new, prev', crossed) /\
    picked prev new prev' /\ (prev' = prev \/ prev' <= stop j) /\
    (if crossed then jEndx j <= prev' /\ prev' <= stop j
     else stop j + 2 <= prev' + 2 * min /\ (prev' = prev \/ prev' < jEndx j)).
Proof.
  intros j cands prev cuts CO SP CU. destruct cands as [|[c [|]] cs].
  - apply (selectCuts_ok _ (seek j)); auto. lia.
  - cbn [candOk] in CO. destruct CO as (C1 & C2 & C3 & CH). cbn [selectCuts negb andb].
    destruct (Nat.leb_spec c prev) as [LE|GT]; [apply (selectCuts_ok _ c); auto; lia|].
    rewrite (appendCut_ok cuts prev c CU) by lia.
    assert (ZZ : slice f prev c = zeros (c - prev)).
    { assert (SZ : stop j <= length f \/ length f < stop j) by lia.
      destruct (Nat.le_gt_cases c (length f)) as [CL|CG].
      - eapply slice_zeros_sub; [exact SP| | | |exact C3]; lia.
      - exfalso. assert (LL := f_equal (@length Z) C3). rewrite slen in LL. unfold zeros in LL.
        rewrite repeat_length in LL. lia. }
    destruct (Nat.leb_spec (jEndx j) c) as [CR|NC].
    + exists [c], c, true. split; [reflexivity|]. split; [cbn; auto|]. split; [lia|]. lia.
    + destruct (selectCuts_ok cs c (stop j) (jEndx j) c (cuts ++ [c])) as (new & prev' & crossed & E & P & F & K);
        auto; try lia.
      { right. apply last_app1. }
      exists (c :: new), prev', crossed. rewrite E.
      split; [rewrite <- app_assoc; reflexivity|]. split; [cbn; auto|]. split; [lia|].
      destruct crossed; [auto|]. lia.
  - apply (selectCuts_ok _ (seek j)); auto. lia.
Qed.

(** The segments. *)
Fixpoint segs (beg : nat) (jobs : list job) : Prop :=
  match jobs with
  | [] => False
  | [j] => jBeg j = beg /\ jEndx j = sz /\ jLast j = true /\ beg < sz
  | j :: js => jBeg j = beg /\ jEndx j = beg + seg /\ jLast j = false /\ beg + seg < sz /\ segs (beg + seg) js
  end.

(** The last segment is not too short. *)
Fixpoint roomy (jobs : list job) : Prop :=
  match jobs with
  | [] => True
  | [j] => True
  | [j1; j2] => 2 * min <= S (sz - jBeg j2)
  | _ :: js => roomy js
  end.

(** The selected cuts of the jobs, one after the other. *)
Fixpoint outOk (prev : nat) (l : list (job * list nat)) : Prop :=
  match l with
  | [] => prev = sz
  | (j, cuts) :: r =>
      jBeg j <= prev /\ exists new p', cuts = prev :: new /\ picked prev new p' /\ outOk p' r
  end.

Lemma conclude_cons : forall x y l, snd y <> [] ->
  conclude sz (x :: y :: l) = x :: conclude sz (y :: l).
Proof.
  intros [j1 c1] [j2 c2] l H. cbn in H. destruct c2 as [|a c2]; [congruence|].
  destruct l; reflexivity.
Qed.

Lemma selectAll_head : forall jobs prev start j cs r, start <> [] ->
  selectAll min max ((j, cs) :: jobs) prev start = r -> exists c r', r = (j, c) :: r' /\ c <> [].
Proof.
  intros jobs prev start j cs r NE E. cbn [selectAll] in E.
  assert (K : forall cands p endx cuts, cuts <> [] -> fst (fst (selectCuts min max endx cands p cuts)) <> []).
  { assert (AN : forall cuts c, appendCut cuts c <> []).
    { intros cuts c. unfold appendCut. destruct cuts as [|x l]; [discriminate|].
      destruct (_ =? _); [discriminate|]. cbn. discriminate. }
    induction cands as [|[c b] cands IH]; intros p endx cuts N; [exact N|].
    cbn [selectCuts]. destruct (c <=? p); [auto|].
    destruct (negb b && (c - p <? min)); [auto|].
    destruct (endx <=? _); [cbn; apply AN|]. apply IH. apply AN. }
  specialize (K cs prev (jEndx j) start NE).
  destruct (selectCuts min max (jEndx j) cs prev start) as [[cuts p'] cr].
  subst r. eexists. eexists. split; [reflexivity|]. exact K.
Qed.

Lemma selectAll_ok : forall jobs cands beg prev, segs beg jobs -> roomy jobs ->
  Forall2 candOk jobs cands -> beg <= prev ->
  match jobs with j :: _ => prev <= jEndx j | [] => True end ->
  outOk prev (conclude sz (selectAll min max (combine jobs cands) prev [prev])).
Proof.
  induction jobs as [|j js IH]; intros cands beg prev S R F BP PE; [destruct S|].
  inversion F as [|x c y cs CO F']; subst x y cands. cbn [combine selectAll].
  destruct js as [|j2 js].
  - (* the last job *)
    cbn [segs] in S. destruct S as (B & E & LA & BS).
    assert (SB : seek j <= prev) by (unfold seek; lia).
    assert (ST : stop j = sz) by (unfold stop; rewrite LA; auto).
    destruct (select_job j c prev [prev] CO SB) as (new & p' & cr & EQ & PK & PF & K); [right; reflexivity|].
    inversion F'; subst cs. rewrite EQ. cbn [combine selectAll conclude].
    assert (LN : last ([prev] ++ new) 0 = p').
    { clear - PK. cbn [app]. revert prev PK. induction new as [|a l IL]; intros prev PK; [exact PK|].
      destruct PK as (_ & _ & PK). apply IL in PK. exact PK. }
    change ([prev] ++ new) with (prev :: new) in *. rewrite LN.
    assert (PS : p' <= sz) by lia.
    destruct (Nat.eqb_spec p' sz) as [->|NE].
    + cbn [outOk]. split; [lia|]. exists new, sz. auto.
    + assert (FIN : sz - p' <= max).
      { destruct cr; [lia|]. destruct K as [K _]. lia. }
      cbn [outOk]. split; [lia|]. exists (new ++ [sz]), sz. split; [reflexivity|]. split; [|reflexivity].
      eapply picked_app; [exact PK|]. cbn. split; [lia|]. split; [auto|reflexivity].
  - (* a job before the last *)
    assert (S' := S). change (segs beg (j :: j2 :: js)) with
      (jBeg j = beg /\ jEndx j = beg + seg /\ jLast j = false /\ beg + seg < sz /\ segs (beg + seg) (j2 :: js)) in S.
    destruct S as (B & E & LA & BS & S).
    assert (SB : seek j <= prev) by (unfold seek; lia).
    destruct (select_job j c prev [prev] CO SB) as (new & p' & cr & EQ & PK & PF & K); [right; reflexivity|].
    rewrite EQ.
    assert (STOP : stop j = sz \/ stop j = jEndx j + max).
    { unfold stop. rewrite LA. destruct (sz <? jEndx j + max); auto. }
    assert (STL : stop j <= jEndx j + max /\ stop j <= sz).
    { unfold stop. rewrite LA. destruct (Nat.ltb_spec sz (jEndx j + max)); lia. }
    assert (B2 : jBeg j2 = beg + seg /\ (jEndx j2 = sz \/ jEndx j2 = beg + seg + seg)).
    { cbn [segs] in S. destruct js as [|j3 js]; [lia|].
      change (jBeg j2 = beg + seg /\ jEndx j2 = beg + seg + seg /\ jLast j2 = false /\
              beg + seg + seg < sz /\ segs (beg + seg + seg) (j3 :: js)) in S. lia. }
    assert (CR : cr = true).
    { destruct cr; [reflexivity|]. exfalso. destruct K as [K1 K2].
      destruct STOP as [ST|ST]; [|lia].
      (* the read of this job reaches the end of the file: it is the last but one *)
      destruct js as [|j3 js].
      - cbn [roomy] in R. lia.
      - change (jBeg j2 = beg + seg /\ jEndx j2 = beg + seg + seg /\ jLast j2 = false /\
              beg + seg + seg < sz /\ segs (beg + seg + seg) (j3 :: js)) in S. lia. }
    subst cr.
    assert (R' : roomy (j2 :: js)).
    { destruct js as [|j3 js]; [exact I|]. exact R. }
    specialize (IH cs (beg + seg) p' S R' F').
    destruct cs as [|c2 cs]; [inversion F'|]. cbn [combine] in *.
    destruct (selectAll_head (combine js cs) p' [p'] j2 c2 _ ltac:(discriminate) eq_refl) as (cc & rr & ER & NN).
    rewrite ER in IH |- *. rewrite conclude_cons by exact NN.
    cbn [outOk]. split; [lia|]. exists new, p'. split; [reflexivity|]. split; [exact PK|].
    apply IH; lia.
Qed.

Lemma mkJobs_segs : 0 < sz -> segs 0 (mkJobs seg sz) /\
  (sz <= seg \/ 2 * min <= S ((sz - 1) mod seg + 1) -> roomy (mkJobs seg sz)).
Proof.
  intros P. unfold mkJobs.
  assert (SP : 0 < seg) by lia.
  set (n := (sz + seg - 1) / seg).
  assert (N1 : 0 < n).
  { unfold n. apply Nat.div_str_pos. lia. }
  assert (D := Nat.div_mod (sz + seg - 1) seg ltac:(lia)). fold n in D.
  assert (U := Nat.mod_upper_bound (sz + seg - 1) seg ltac:(lia)).
  assert (LO : (n - 1) * seg < sz /\ sz <= n * seg) by nia.
  assert (RM : sz - (n - 1) * seg = (sz - 1) mod seg + 1).
  { assert (M := Nat.mod_unique (sz - 1) seg (n - 1) (sz - 1 - (n - 1) * seg)).
    rewrite <- M by nia. nia. }
  assert (GEN : forall k i, i + S k = n ->
    segs (i * seg) (map (fun i => mkJob (i * seg) (Nat.min sz ((i + 1) * seg)) (i =? n - 1)) (seq i (S k)))).
  { induction k as [|k IH]; intros i I.
    - cbn. assert (i = n - 1) by lia. subst i.
      rewrite Nat.eqb_refl. repeat split; try lia; nia.
    - assert (IH1 := IH (Datatypes.S i) ltac:(lia)).
      change (seq i (Datatypes.S (Datatypes.S k))) with (i :: Datatypes.S i :: seq (Datatypes.S (Datatypes.S i)) k).
      change (seq (Datatypes.S i) (Datatypes.S k)) with (Datatypes.S i :: seq (Datatypes.S (Datatypes.S i)) k) in IH1.
      cbn [map] in *. cbn [segs jBeg jEndx jLast].
      split; [reflexivity|]. split; [nia|]. split; [destruct (Nat.eqb_spec i (n - 1)); [lia|reflexivity]|].
      split; [nia|]. replace (i * seg + seg) with (Datatypes.S i * seg) by nia. exact IH1. }
  assert (NS : n = Datatypes.S (n - 1)) by lia.
  assert (G1 := GEN (n - 1) 0 ltac:(lia)). rewrite <- NS in G1. split; [exact G1|].
  intros H.
  assert (RG : forall k i, i + Datatypes.S (Datatypes.S k) = n -> 2 * min <= Datatypes.S ((sz - 1) mod seg + 1) ->
    roomy (map (fun i => mkJob (i * seg) (Nat.min sz ((i + 1) * seg)) (i =? n - 1)) (seq i (Datatypes.S (Datatypes.S k))))).
  { induction k as [|k IH]; intros i I HH.
    - cbn [seq map roomy jBeg]. assert (Datatypes.S i = n - 1) as -> by lia. lia.
    - specialize (IH (Datatypes.S i) ltac:(lia) HH). exact IH. }
  destruct (Nat.eq_dec n 1) as [N|N].
  - rewrite N. cbn. exact I.
  - assert (G2 := RG (n - 2) 0 ltac:(lia)).
    replace (Datatypes.S (Datatypes.S (n - 2))) with n in G2 by lia. apply G2. destruct H as [H|H]; [exfalso; nia|exact H].
Qed.

Lemma mapR_ok : forall A B (g : A -> res B) (P : A -> B -> Prop) l,
  (forall a, In a l -> exists b, g a = Ok b /\ P a b) ->
  exists r, mapR g l = Ok r /\ Forall2 P l r.
Proof.
  induction l as [|a l IH]; intros H; [exists []; split; [reflexivity|constructor]|].
  destruct (H a (or_introl eq_refl)) as (b & E & PB).
  destruct IH as (r & ER & FR); [intros x X; apply H; right; auto|].
  exists (b :: r). cbn [mapR]. rewrite E, ER. cbn [bind]. split; [reflexivity|constructor; auto].
Qed.

Lemma hashCuts_ok : forall new prev p', picked prev new p' -> p' <= sz ->
  hashCuts hsh f prev new = Ok (labelledAll hsh f prev new).
Proof.
  induction new as [|c new IH]; intros prev p' P L; [reflexivity|].
  destruct P as (A & _ & P). cbn [hashCuts labelledAll].
  assert (CL := incr_le _ _ _ (picked_incr _ _ _ P)).
  destruct (Nat.leb_spec c prev); [lia|]. fold sz. destruct (Nat.ltb_spec sz c); [lia|]. cbn [orb].
  rewrite (IH c p' P L). cbn [bind]. reflexivity.
Qed.

Lemma outOk_le : forall l prev, outOk prev l -> prev <= sz.
Proof.
  induction l as [|[j cuts] l IH]; intros prev H; cbn in H; [lia|].
  destruct H as (_ & new & p' & _ & P & H). apply IH in H.
  apply picked_incr, incr_le in P. lia.
Qed.

Lemma labelledAll_app : forall a b p q, incr p a q ->
  labelledAll hsh f p (a ++ b) = labelledAll hsh f p a ++ labelledAll hsh f q b.
Proof.
  induction a as [|c a IH]; intros b p q H; cbn in *; [subst; reflexivity|].
  destruct H as [_ H]. f_equal. apply IH. auto.
Qed.

Lemma labelledAll_last : forall a p q l r, incr p a q -> rev (labelledAll hsh f p a) = l :: r -> cEndx l = q.
Proof.
  intros a p q l r I E. destruct (exists_last (l := a)) as (a' & x & ->).
  { intros ->. discriminate E. }
  assert (K : forall u p q v, incr p (u ++ [v]) q -> exists m, incr p u m /\ q = v).
  { induction u as [|c u IH]; intros p0 q0 v H; cbn in H.
    - destruct H as [_ H]. exists p0. cbn. auto.
    - destruct H as [A H]. destruct (IH _ _ _ H) as (m & H1 & H2). exists m. cbn. auto. }
  destruct (K _ _ _ _ I) as (m & H1 & ->).
  rewrite (labelledAll_app _ _ _ _ H1), rev_app_distr in E. cbn in E. injection E as <- _. reflexivity.
Qed.

Lemma assemble_ok : forall l prev done, outOk prev l -> incr 0 done prev ->
  exists hashed new, mapR (hashJob hsh f) l = Ok hashed /\
    assemble (labelledAll hsh f 0 done) hashed = Ok (labelledAll hsh f 0 (done ++ new)) /\
    picked prev new sz.
Proof.
  induction l as [|[j cuts] l IH]; intros prev done O I0; cbn [outOk] in O.
  - subst prev. exists [], []. cbn [mapR assemble]. rewrite app_nil_r. split; [reflexivity|]. split; [reflexivity|reflexivity].
  - destruct O as (B & new & p' & -> & P & O).
    assert (PL := outOk_le _ _ O).
    assert (I1 : incr 0 (done ++ new) p').
    { clear - I0 P. apply picked_incr in P. revert I0. generalize 0 as z. induction done as [|c d IH]; intros z I0; cbn in *.
      - subst. auto.
      - destruct I0. auto. }
    destruct (IH p' (done ++ new) O I1) as (hashed & rest & EM & EA & PK).
    exists (labelledAll hsh f prev new :: hashed), (new ++ rest).
    cbn [mapR]. unfold hashJob at 1. cbn [fst snd].
    destruct (Nat.ltb_spec prev (jBeg j)); [lia|].
    rewrite (hashCuts_ok new prev p' P PL). cbn [bind]. rewrite EM. cbn [bind].
    split; [reflexivity|].
    rewrite (labelledAll_app done new 0 prev I0) in EA.
    rewrite <- app_assoc in EA.
    split; [|eapply picked_app; eauto].
    rewrite <- EA. cbn [assemble].
    destruct (labelledAll hsh f prev new) as [|c cs] eqn:LA.
    { reflexivity. }
    destruct (rev (labelledAll hsh f 0 done)) as [|x r] eqn:RV; [reflexivity|].
    rewrite (labelledAll_last _ _ _ _ _ I0 RV).
    assert (cBeg c = prev).
    { destruct new as [|n0 new]; [discriminate LA|]. cbn in LA. injection LA as <- _. reflexivity. }
    rewrite H0, Nat.eqb_refl. reflexivity.
Qed.

Lemma coalesce_join : forall cs, (forall c, In c cs -> cData c = []) ->
  coalesce cs None = joinZeros cs /\
  forall l, cCry l = Rle0 -> cData l = [] -> coalesce cs (Some l) = joinZeros (l :: cs).
Proof.
  induction cs as [|c cs IH]; intros D.
  - split; [reflexivity|]. intros l L _. cbn. rewrite L. reflexivity.
  - destruct IH as [IH1 IH2]; [intros x X; apply D; right; auto|].
    assert (DC := D c (or_introl eq_refl)).
    split.
    + cbn [coalesce]. destruct (cCry c) eqn:C.
      * apply IH2; auto.
      * rewrite IH1. cbn [joinZeros]. rewrite C. reflexivity.
      * rewrite IH1. cbn [joinZeros]. rewrite C. reflexivity.
    + intros l L DL. cbn [coalesce]. destruct (cCry c) eqn:C.
      * rewrite IH2 by auto. cbn [joinZeros cCry]. rewrite L, C.
        destruct (joinZeros cs) as [|d ds]; cbn; [rewrite C; reflexivity|].
        destruct (cCry d) eqn:CD; cbn [cCry cBeg cEndx]; rewrite ?C; reflexivity.
      * rewrite IH1. cbn [joinZeros]. rewrite L, C. cbn. rewrite C. reflexivity.
      * rewrite IH1. cbn [joinZeros]. rewrite L, C. cbn. rewrite C. reflexivity.
Qed.

Lemma picked_bounded : forall new p q, picked p new q -> q <= sz -> bounded max (labelledAll hsh f p new).
Proof.
  unfold bounded. induction new as [|c new IH]; intros p q P Q; [constructor|].
  destruct P as (A & B & P). cbn [labelledAll]. constructor; [|eapply IH; eauto].
  unfold labelled, cLen. cbn [cCry cBeg cEndx]. fold (allZero (slice f p c)).
  destruct B as [B|B]; [intros _; exact B|].
  assert (AZ : allZero (slice f p c) = true).
  { apply allZero_iff. rewrite B. f_equal. unfold zeros. rewrite repeat_length. reflexivity. }
  rewrite AZ. congruence.
Qed.

Lemma par_ok : 0 < sz -> (sz <= seg \/ 2 * min <= S ((sz - 1) mod seg + 1)) ->
  exists cuts, incr 0 cuts sz /\
    chunkFile2 hsh alg min max seg f = Ok (joinZeros (labelledAll hsh f 0 cuts)) /\
    bounded max (labelledAll hsh f 0 cuts) /\ jobless alg min max seg f = Ok [].
Proof.
  intros P R. unfold chunkFile2, jobless. rewrite (Nat.max_l seg max) by lia. fold sz.
  destruct (mkJobs_segs P) as [S RO]. specialize (RO R).
  assert (JB : forall jobs beg, segs beg jobs -> forall j, In j jobs -> jBeg j < jEndx j /\ jEndx j <= sz).
  { induction jobs as [|j js IH]; intros beg SG x X; [destruct X|].
    destruct js as [|j2 js].
    - destruct X as [<-|[]]. cbn in SG. lia.
    - change (jBeg j = beg /\ jEndx j = beg + seg /\ jLast j = false /\ beg + seg < sz /\ segs (beg + seg) (j2 :: js)) in SG.
      destruct SG as (S1 & S2 & S3 & S4 & SG). destruct X as [<-|X]; [lia|]. eapply IH; eauto. }
  destruct (mapR_ok job _ (candidates alg min max f) candOk (mkJobs seg sz)) as (cands & EC & FC).
  { intros j J. destruct (JB _ _ S j J). apply candidates_ok; auto. }
  rewrite EC. cbn [bind].
  assert (OUT : outOk 0 (conclude sz (selectAll min max (combine (mkJobs seg sz) cands) 0 [0]))).
  { apply (selectAll_ok _ _ 0); auto. destruct (mkJobs seg sz) as [|j js]; [exact I|]. lia. }
  set (sel := conclude sz (selectAll min max (combine (mkJobs seg sz) cands) 0 [0])) in *.
  destruct (assemble_ok sel 0 [] OUT eq_refl) as (hashed & new & EM & EA & PK).
  rewrite EM. cbn [bind]. change ([] : list chunk) with (labelledAll hsh f 0 []) at 1.
  rewrite EA. cbn [bind app].
  assert (DN : forall c, In c (labelledAll hsh f 0 new) -> cData c = []).
  { clear. generalize 0 as p. induction new as [|a l IH]; intros p c H; cbn in H; [tauto|].
    destruct H as [<-|H]; [reflexivity|eauto]. }
  destruct (coalesce_join _ DN) as [CJ _]. rewrite CJ.
  exists new. split; [apply picked_incr; exact PK|]. split; [|split].
  - destruct (joinZeros (labelledAll hsh f 0 new)) as [|c cs] eqn:J; [|reflexivity].
    exfalso. destruct new as [|a l].
    + cbn in PK. lia.
    + cbn [labelledAll] in J. destruct (joinZeros_head (labelled hsh f 0 a) (labelledAll hsh f a l)) as (e & E & _).
      rewrite J in E. discriminate E.
  - eapply picked_bounded; eauto.
  - f_equal. assert (NN : forall l p, outOk p l -> filter (fun jc : job * list nat => match snd jc with [] => true | _ => false end) l = []).
    { induction l as [|[j cuts] l IH]; intros p O; [reflexivity|].
      destruct O as (_ & nw & p' & -> & _ & O). cbn. eapply IH; eauto. }
    rewrite (NN sel 0 OUT). reflexivity.
Qed.
End Par.
