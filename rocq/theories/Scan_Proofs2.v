From Coq Require Import List ZArith Lia Bool.
From Verif Require Import Base Cdc_Model Cdc_Spec Cdc_Proofs Sync_Model Sync_Spec Sync_Proofs
  Scan_Model Scan_Spec Scan_Proofs.
Import ListNotations.
Open Scope nat_scope.

(** ** CutpointsAndAllZero *)

Fixpoint fk (f : list Z) (off : nat) (cuts : list nat) (acc : list kcut) : list kcut :=
  match cuts with
  | [] => acc
  | c :: cs => fk f c cs (addCut (slice f off c) c acc)
  end.

Lemma fk_app : forall f a b off acc, fk f off (a ++ b) acc = fk f (last a off) b (fk f off a acc).
Proof.
  induction a as [|c a IH]; intros b off acc; [reflexivity|].
  cbn [fk app]. rewrite IH. f_equal. destruct a as [|d a]; [reflexivity|].
  cbn [last]. destruct a; [reflexivity|].
  assert (K : forall (l : list nat) x d1 d2, last (x :: l) d1 = last (x :: l) d2).
  { induction l as [|y l IL]; intros; [reflexivity|]. cbn [last] in *. apply IL. }
  apply K.
Qed.

Lemma addCuts_fk : forall f off len cuts prev acc,
  (forall c, In c cuts -> c <= len) -> incr prev cuts (last cuts prev) ->
  addCuts (slice f off (off + len)) off prev cuts acc = fk f (off + prev) (map (Nat.add off) cuts) acc.
Proof.
  induction cuts as [|c cs IH]; intros prev acc B I; [reflexivity|].
  cbn [addCuts map fk]. destruct I as [I1 I2].
  rewrite IH.
  - f_equal. f_equal. rewrite bytesOf_slice. unfold slice at 1.
    assert (K := slice_sub f off (off + len) (off + prev) (off + c)).
    replace (off + c - (off + prev)) with (c - prev) in K by lia.
    replace (off + prev - off) with prev in K by lia. apply K; try lia.
    specialize (B c (or_introl eq_refl)). lia.
  - intros x X. apply B. right. auto.
  - destruct cs as [|d cs]; [reflexivity|].
    replace (last (d :: cs) c) with (last (c :: d :: cs) prev) by
      (cbn [last]; assert (K : forall (l : list nat) x d1 d2, last (x :: l) d1 = last (x :: l) d2)
        by (induction l as [|y l IL]; intros; [reflexivity|]; cbn [last] in *; apply IL); apply K).
    exact I2.
Qed.

(** Some steps, with the place they end at. *)
Inductive psteps (alg : list Z -> res nat) : nat -> list Z -> list nat -> nat -> Prop :=
| ps_nil : forall off d, psteps alg off d [] off
| ps_cons : forall off d c cs off', alg d = Ok c -> d <> [] ->
    psteps alg (off + c) (skipn c d) cs off' -> psteps alg off d ((off + c) :: cs) off'.

Lemma psteps_steps : forall min max alg, good_alg min max alg -> forall off d cs off',
  psteps alg off d cs off' -> off' <= off + length d /\ off <= off' /\ last cs off = off' /\
  (cs <> [] -> off < off') /\ (forall c, In c cs -> c <= off') /\ incr off cs off' /\
  forall cs2, steps alg off' (skipn (off' - off) d) cs2 -> steps alg off d (cs ++ cs2).
Proof.
  intros min max alg G off d cs off' P. induction P as [off d|off d c cs off' A D P IH].
  - repeat split; try lia; try (cbn; tauto).
    intros cs2 S. rewrite Nat.sub_diag in S. exact S.
  - destruct (G d D) as (c' & A' & C & CL & _). assert (c' = c) by congruence. subst c'.
    destruct IH as (I1 & I2 & I3 & I4 & I5 & I6 & I7). rewrite skipn_length in I1.
    repeat split; try lia.
    + rewrite <- I3. destruct cs as [|x cs]; [reflexivity|]. 
      assert (K : forall (l : list nat) x d1 d2, last (x :: l) d1 = last (x :: l) d2)
        by (induction l as [|y l IL]; intros; [reflexivity|]; cbn [last] in *; apply IL).
      change (last ((off + c) :: x :: cs) off) with (last (x :: cs) off). apply K.
    + intros x [<-|X]; [lia|auto].
    + exact I6.
    + intros cs2 S. cbn [app]. constructor; auto. apply I7. rewrite skipn_skipn.
      replace (off' - (off + c) + c) with (off' - off) by lia. exact S.
Qed.

(** The cuts of a prefix, but for the last one, are cuts of the whole. *)
Lemma steps_removelast : forall alg, stable_alg alg -> forall min max, good_alg min max alg ->
  forall off d cs, steps alg off d cs -> forall e,
  exists off', psteps alg off (d ++ e) (removelast cs) off'.
Proof.
  intros alg ST min max G. induction 1 as [|off d c cs D A S IH]; intros e.
  - exists off. constructor.
  - destruct (G d D) as (c' & A' & C & CL & _). assert (c' = c) by congruence. subst c'.
    destruct cs as [|c2 cs]; [exists off; constructor|].
    destruct (IH e) as [off' P]. exists off'.
    change (removelast ((off + c) :: c2 :: cs)) with ((off + c) :: removelast (c2 :: cs)).
    assert (LT : c < length d).
    { inversion S as [|o d' c' cs' D' A2 S']; subst.
      assert (length (skipn c d) <> 0) by (destruct (skipn c d); cbn; congruence).
      rewrite skipn_length in *. lia. }
    constructor.
    + apply ST; auto.
    + destruct d; cbn; congruence.
    + rewrite skipn_app. replace (c - length d) with 0 by lia. exact P.
Qed.

Lemma slice_split : forall f a b c, a <= b -> b <= c -> slice f a c = slice f a b ++ slice f b c.
Proof. intros. symmetry. apply slice_app; auto. Qed.

Lemma dataSpan_fk : forall min max alg buf f, good_alg min max alg -> local_alg max alg -> stable_alg alg ->
  0 < max -> max <= buf ->
  forall fuel off endx acc cs, off <= endx -> endx <= length f -> endx - off < fuel ->
  steps alg off (slice f off endx) cs ->
  dataSpan alg buf f fuel off endx acc = Ok (fk f off cs acc).
Proof.
  intros min max alg buf f G LO ST M MB.
  induction fuel as [|fu IH]; intros off endx acc cs O E F S; [lia|].
  cbn [dataSpan].
  destruct (Nat.leb_spec endx off) as [DONE|MORE].
  { assert (off = endx) by lia. subst off. unfold slice in S. rewrite Nat.sub_diag in S.
    cbn [firstn] in S. inversion S; subst; [reflexivity|congruence]. }
  remember (Nat.min buf (endx - off)) as n eqn:NV. rewrite bytesOf_slice.
  assert (LD : length (slice f off (off + n)) = n) by (rewrite slen; lia).
  assert (ND : slice f off (off + n) <> []).
  { intros X. rewrite X in LD. cbn in LD. lia. }
  destruct (cutpoints_steps min max alg (slice f off (off + n)) G) as (cuts & CE & CS).
  assert (SH := steps_shift alg 0 _ cuts CS off).
  assert (CF := steps_facts min max alg G 0 _ cuts CS).
  assert (CI := steps_incr min max alg G 0 _ cuts CS). rewrite LD in CI. cbn [Nat.add] in CI.
  assert (CB : forall l fin x, incr x l fin -> forall c, In c l -> c <= fin).
  { induction l as [|y l IL]; intros fin x I c; cbn in *; [tauto|]. destruct I as [I1 I2].
    intros [<-|K]; [apply incr_le in I2; auto|eapply IL; eauto]. }
  assert (CL : forall l fin x, incr x l fin -> last l x = fin).
  { induction l as [|y l IL]; intros fin x I; cbn in *; [auto|]. destruct I as [I1 I2].
    specialize (IL _ _ I2). destruct l as [|z l]; [exact IL|].
    rewrite <- IL. clear. revert z. induction l as [|w l IL]; intros z; [reflexivity|].
    cbn [last] in *. apply IL. }
  destruct (slice f off (off + n)) as [|x0 dd] eqn:ED; [congruence|]. rewrite <- ED in *. clear ED x0 dd.
  rewrite CE. cbn [bind]. rewrite LD.
  assert (ME : map (fun c => off + (c - 0)) cuts = map (Nat.add off) cuts).
  { apply map_ext. intros. lia. }
  rewrite ME in SH.
  destruct (Nat.leb_spec endx (off + n)) as [LAST|NOT].
  - assert (off + n = endx) as EN by lia.
    rewrite addCuts_fk; [|intros c; eapply CB; eauto|rewrite (CL _ _ _ CI); exact CI].
    rewrite (CL _ _ _ CI) at 1. rewrite EN in *.
    assert (map (Nat.add off) cuts = cs) as -> by (eapply steps_fun; eauto).
    rewrite Nat.add_0_r. destruct fu; [|cbn [dataSpan]]; cbn [dataSpan]; rewrite Nat.leb_refl; reflexivity.
  - assert (n = buf) as NB by lia.
    (* the kept cuts are steps of the whole span *)
    set (kept := match removelast cuts with [] => cuts | l => l end).
    assert (KK : exists off', psteps alg off (slice f off endx) (map (Nat.add off) kept) off' /\
      (forall c, In c kept -> c <= n) /\ incr 0 kept (last kept 0) /\ kept <> []).
    { assert (CN : cuts <> []).
      { intros ->. cbn in CI. lia. }
      destruct (removelast cuts) as [|k0 kr] eqn:RL.
      - destruct cuts as [|c cuts']; [congruence|].
        destruct cuts' as [|c2 cuts2]; [|cbn in RL; destruct cuts2; discriminate RL].
        cbn in CI. destruct CI as [_ CI].
        assert (A : alg (slice f off (off + n)) = Ok n).
        { inversion CS as [|o d c' cs' D A S' E1]; subst; auto. }
        destruct (G _ ND) as (c'' & A' & _ & _ & CM & _). assert (c'' = n) by congruence.
        exists (off + n). split.
        + unfold kept. cbn [map]. rewrite CI. apply ps_cons.
          * rewrite LO, <- A, (LO (slice f off (off + n))). f_equal.
            rewrite !slice_firstn by lia. reflexivity.
          * intros X. assert (Y := slen f off endx). rewrite X in Y. cbn in Y. lia.
          * constructor.
        + unfold kept. split; [intros x [<-|[]]; lia|]. split; [|discriminate]. cbn. lia.
      - rewrite (slice_split f off (off + n) endx) by lia.
        destruct (steps_removelast alg ST min max G off _ _ SH (slice f (off + n) endx)) as [off' P].
        exists off'. unfold kept. rewrite <- RL.
        assert (RM : removelast (map (Nat.add off) cuts) = map (Nat.add off) (removelast cuts)).
        { clear. induction cuts as [|c l IL]; [reflexivity|]. destruct l as [|d l]; [reflexivity|].
          change (removelast (c :: d :: l)) with (c :: removelast (d :: l)).
          change (map (Nat.add off) (c :: d :: l)) with ((off + c) :: (off + d) :: map (Nat.add off) l).
          change (removelast ((off + c) :: (off + d) :: map (Nat.add off) l))
            with ((off + c) :: removelast ((off + d) :: map (Nat.add off) l)).
          cbn [map]. f_equal. exact IL. }
        rewrite RM in P. split; [exact P|]. split; [|split].
        + intros c I. eapply CB; [exact CI|].
          clear - I. revert c I. induction cuts as [|y l IL]; intros c I; [destruct I|].
          destruct l as [|z l]; [destruct I|].
          change (removelast (y :: z :: l)) with (y :: removelast (z :: l)) in I.
          destruct I as [<-|I]; [left; auto|right; auto].
        + clear - CI. revert CI. generalize 0 as x. 
          assert (RI : forall l x fin, incr x l fin -> incr x (removelast l) (last (removelast l) x)).
          { induction l as [|y l IL]; intros x fin I; [reflexivity|]. destruct I as [I1 I2].
            destruct l as [|z l]; [reflexivity|].
            change (removelast (y :: z :: l)) with (y :: removelast (z :: l)).
            cbn [incr]. split; [auto|]. specialize (IL _ _ I2).
            destruct (removelast (z :: l)) as [|w r] eqn:R; [reflexivity|].
            replace (last (y :: w :: r) x) with (last (w :: r) y); [exact IL|].
            cbn [last]. clear. revert w. induction r as [|u r IR]; intros w; [reflexivity|].
            cbn [last] in *. apply IR. }
          intros x CI. eapply RI. exact CI.
        + rewrite RL. discriminate. }
    destruct KK as (off' & P & KB & KI & KN).
    destruct (psteps_steps min max alg G _ _ _ _ P) as (Q1 & Q2 & Q3 & Q4 & Q5 & Q6 & Q7).
    rewrite slen in Q1.
    assert (KL : off + last kept 0 = off').
    { rewrite <- Q3. clear - KN. destruct kept as [|k l]; [congruence|]. clear KN.
      cbn [map]. revert k. induction l as [|z l IL]; intros k; [reflexivity|].
      cbn [map]. change (last (k :: z :: l) 0) with (last (z :: l) 0).
      change (last ((off + k) :: (off + z) :: map (Nat.add off) l) off)
        with (last ((off + z) :: map (Nat.add off) l) off). apply IL. }
    rewrite KL.
    destruct (cutpoints_steps min max alg (slice f off' endx) G) as (c2 & _ & S2).
    apply (steps_shift alg 0) with (o2 := off') in S2.
    set (cs2 := map (fun c => off' + (c - 0)) c2) in *.
    assert (SK : steps alg off (slice f off endx) (map (Nat.add off) kept ++ cs2)).
    { apply Q7. rewrite slice_skipn. replace (off + (off' - off)) with off' by lia. exact S2. }
    assert (cs = map (Nat.add off) kept ++ cs2) by (eapply steps_fun; eauto). subst cs.
    assert (Q4' : off < off'). { apply Q4. destruct kept; cbn; congruence. }
    rewrite addCuts_fk by auto. rewrite Nat.add_0_r.
    rewrite (IH off' endx _ cs2) by (auto; lia).
    rewrite fk_app, Q3. reflexivity.
Qed.

(** ** The cuts and their chunks *)

Definition kchunk (hsh : list Z -> Z) (f : list Z) (prev : nat) (k : kcut) : chunk :=
  mkChunk prev (kCut k) (if kZero k then Rle0 else Hash (hsh (slice f prev (kCut k)))) [].

Fixpoint chunksOf (hsh : list Z -> Z) (f : list Z) (prev : nat) (ks : list kcut) : list chunk :=
  match ks with
  | [] => []
  | k :: ks' => kchunk hsh f prev k :: chunksOf hsh f (kCut k) ks'
  end.

Fixpoint endOf (prev : nat) (ks : list kcut) : nat :=
  match ks with [] => prev | k :: ks' => endOf (kCut k) ks' end.

Lemma endOf_app : forall a b p, endOf p (a ++ b) = endOf (endOf p a) b.
Proof. induction a as [|k a IH]; intros; [reflexivity|]. cbn. apply IH. Qed.

Lemma chunksOf_app : forall hsh f a b p,
  chunksOf hsh f p (a ++ b) = chunksOf hsh f p a ++ chunksOf hsh f (endOf p a) b.
Proof. induction a as [|k a IH]; intros; [reflexivity|]. cbn. f_equal. apply IH. Qed.

(** What is known of a cut after [prev]. *)
Definition cutOk (max : nat) (f : list Z) (spans : list sspan) (prev : nat) (k : kcut) : Prop :=
  prev < kCut k /\ kCut k <= length f /\ kPre k = false /\
  if kZero k then slice f prev (kCut k) = zeros (kCut k - prev)
  else kCut k - prev <= max /\
       exists s, In s spans /\ sKind s = SData /\ sBeg s <= prev /\ kCut k <= sEndx s.

Fixpoint cutsOk (max : nat) (f : list Z) (spans : list sspan) (prev : nat) (ks : list kcut) : Prop :=
  match ks with
  | [] => True
  | k :: ks' => cutOk max f spans prev k /\ cutsOk max f spans (kCut k) ks'
  end.

Lemma cutsOk_app : forall max f spans a b p,
  cutsOk max f spans p (a ++ b) <-> cutsOk max f spans p a /\ cutsOk max f spans (endOf p a) b.
Proof.
  induction a as [|k a IH]; intros; cbn; [tauto|]. rewrite IH. tauto.
Qed.

Lemma endOf_rev_cons : forall k acc p, endOf p (rev (k :: acc)) = kCut k.
Proof. intros. cbn [rev]. rewrite endOf_app. reflexivity. Qed.

(** One more cut. *)
Lemma addCut_ok : forall max f spans acc off c s,
  cutsOk max f spans 0 (rev acc) -> endOf 0 (rev acc) = off ->
  In s spans -> sKind s = SData -> sBeg s <= off -> c <= sEndx s -> c <= length f ->
  off < c -> c - off <= max ->
  cutsOk max f spans 0 (rev (addCut (slice f off c) c acc)) /\
  endOf 0 (rev (addCut (slice f off c) c acc)) = c.
Proof.
  intros max f spans acc off c s OK E I K B C L O M.
  assert (LS : length (slice f off c) = c - off) by (rewrite slen; lia).
  assert (NEW : cutOk max f spans off (mkCut c (allZero (slice f off c)) false)).
  { unfold cutOk. cbn [kCut kPre kZero]. split; [auto|]. split; [auto|]. split; [auto|].
    destruct (allZero (slice f off c)) eqn:AZ.
    - apply allZero_iff in AZ. rewrite AZ, LS. reflexivity.
    - split; [auto|]. exists s. auto. }
  unfold addCut. destruct acc as [|k ks].
  - cbn. cbn in E. subst off. auto.
  - destruct (allZero (slice f off c) && kZero k && negb (kPre k)) eqn:J.
    + rewrite !andb_true_iff in J. destruct J as [[J1 J2] J3].
      rewrite endOf_rev_cons in E. split; [|apply endOf_rev_cons].
      cbn [rev] in OK |- *. rewrite cutsOk_app in OK |- *. destruct OK as [OK1 [OK2 _]].
      split; [auto|]. split; [|exact I0 || exact Logic.I].
      unfold cutOk in *. cbn [kCut kPre kZero]. destruct OK2 as (P1 & P2 & P3 & P4).
      rewrite J2 in P4. split; [lia|]. split; [auto|]. split; [auto|].
      apply allZero_iff in J1. rewrite LS in J1. subst off.
      apply (slice_zero_join f (endOf 0 (rev ks)) (kCut k) c); auto; lia.
    + split; [|apply endOf_rev_cons].
      change (rev (mkCut c (allZero (slice f off c)) false :: k :: ks))
        with (rev (k :: ks) ++ [mkCut c (allZero (slice f off c)) false]).
      rewrite cutsOk_app, E. cbn [cutsOk]. auto.
Qed.

Lemma fk_ok : forall min max alg f spans s, good_alg min max alg ->
  In s spans -> sKind s = SData -> sEndx s <= length f ->
  forall off d cs, steps alg off d cs -> off + length d <= sEndx s -> sBeg s <= off ->
  forall acc, cutsOk max f spans 0 (rev acc) -> endOf 0 (rev acc) = off ->
  cutsOk max f spans 0 (rev (fk f off cs acc)) /\ endOf 0 (rev (fk f off cs acc)) = off + length d.
Proof.
  intros min max alg f spans s G I K L. induction 1 as [|off d c cs D A S IH]; intros E B acc OK EO.
  - cbn [fk length]. rewrite Nat.add_0_r. auto.
  - destruct (G d D) as (c' & A' & C & CL & CM & _). assert (c' = c) by congruence. subst c'.
    cbn [fk]. rewrite skipn_length in IH.
    destruct (addCut_ok max f spans acc off (off + c) s) as [OK' E']; auto; try lia.
    replace (off + length d) with (off + c + (length d - c)) by lia.
    apply IH; auto; lia.
Qed.

Lemma tile_end : forall spans off fin, spans_tile off spans fin -> off <= fin.
Proof.
  induction spans as [|s ss IH]; intros off fin T; cbn in T; [lia|].
  destruct T as (_ & L & T). apply IH in T. lia.
Qed.

Lemma spanLoop_ok : forall min max alg buf f all, good_alg min max alg -> local_alg max alg ->
  stable_alg alg -> 0 < max -> max <= buf ->
  forall spans off acc, incl spans all -> spans_tile off spans (length f) ->
  Forall (fun s => match sKind s with
                   | SData => True
                   | SHole => slice f (sBeg s) (sEndx s) = zeros (sEndx s - sBeg s)
                   | SPrealloc => False
                   end) spans ->
  cutsOk max f all 0 (rev acc) -> endOf 0 (rev acc) = off ->
  exists acc', spanLoop alg buf f spans off acc = Ok acc' /\
    cutsOk max f all 0 (rev acc') /\ endOf 0 (rev acc') = length f.
Proof.
  intros min max alg buf f all G LO ST M MB.
  induction spans as [|s ss IH]; intros off acc IN T H OK E; cbn [spanLoop].
  - exists acc. cbn in T. subst off. auto.
  - destruct T as (B & L & T). inversion H as [|x y H1 H2]; subst x y.
    assert (TE := tile_end _ _ _ T).
    assert (IN2 : incl ss all) by (intros x X; apply IN; right; auto).
    destruct (sKind s) eqn:K; [| |destruct H1].
    + rewrite B, Nat.eqb_refl.
      destruct (cutpoints_steps min max alg (slice f off (sEndx s)) G) as (cs & _ & S).
      apply (steps_shift alg 0) with (o2 := off) in S.
      rewrite (dataSpan_fk min max alg buf f G LO ST M MB) with (cs := map (fun c => off + (c - 0)) cs)
        by (auto; lia).
      cbn [bind].
      destruct (fk_ok min max alg f all s G (IN s (or_introl eq_refl)) K TE _ _ _ S) with (acc := acc) as [K1 K2];
        auto; try (rewrite slen; lia); try lia.
      apply IH; auto. rewrite K2, slen. lia.
    + cbn [bind]. apply IH; auto; [|apply endOf_rev_cons].
      cbn [rev]. rewrite cutsOk_app, E. split; [auto|]. cbn [cutsOk]. split; [|exact I].
      unfold cutOk. cbn [kCut kPre kZero]. subst off. auto.
Qed.

(** ** The summary *)

Lemma tile_unique : forall spans off fin, spans_tile off spans fin ->
  forall s1 s2 p, In s1 spans -> In s2 spans -> sBeg s1 <= p < sEndx s1 -> sBeg s2 <= p < sEndx s2 -> s1 = s2.
Proof.
  assert (LOW : forall spans off fin, spans_tile off spans fin -> forall s, In s spans -> off <= sBeg s).
  { induction spans as [|s ss IH]; intros off fin T x; cbn in *; [tauto|].
    destruct T as (B & L & T). intros [<-|X]; [lia|]. specialize (IH _ _ T x X). lia. }
  induction spans as [|s ss IH]; intros off fin T s1 s2 p; cbn in *; [tauto|].
  destruct T as (B & L & T). intros [<-|I1] [<-|I2] P1 P2; auto.
  - pose proof (LOW _ _ _ T s2 I2). lia.
  - pose proof (LOW _ _ _ T s1 I1). lia.
  - eapply IH; eauto.
Qed.

Lemma findSpan_ok : forall spans off fin p, spans_tile off spans fin -> off <= p -> p < fin ->
  exists s ss, findSpan p spans = Some (s :: ss) /\ sBeg s <= p < sEndx s /\
    In s spans /\ incl (s :: ss) spans /\ spans_tile (sBeg s) (s :: ss) fin.
Proof.
  induction spans as [|s ss IH]; intros off fin p T P1 P2; cbn in T; [lia|].
  destruct T as (B & L & T). cbn [findSpan].
  destruct (Nat.leb_spec (sBeg s) p) as [A1|A1]; [|lia].
  destruct (Nat.ltb_spec p (sEndx s)) as [A2|A2]; cbn [andb].
  - exists s, ss. split; [auto|]. split; [lia|]. split; [left; auto|]. split; [apply incl_refl|].
    cbn. split; [auto|]. split; [lia|auto].
  - destruct (IH _ _ _ T A2 P2) as (s' & ss' & E & C & I & IN & T').
    exists s', ss'. split; [auto|]. split; [auto|]. split; [right; auto|]. split; [|auto].
    intros x X. right. auto.
Qed.

Lemma sumLoop_ok : forall hsh max dmax f all, max <= dmax -> spans_tile 0 all (length f) ->
  forall ks prev b, cutsOk max f all prev ks ->
  (exists off, spans_tile off (bSpans b) (length f) /\ incl (bSpans b) all /\ off <= prev) ->
  sumLoop hsh dmax f b prev ks = Ok (chunksOf hsh f prev ks).
Proof.
  intros hsh max dmax f all MD TA. induction ks as [|k ks IH]; intros prev b OK BI; [reflexivity|].
  destruct OK as [(P & L & KP & KZ) OK]. cbn [sumLoop chunksOf]. unfold kchunk.
  rewrite KP. destruct (kZero k) eqn:Z0.
  - rewrite IH; auto. destruct BI as (off & T & IN & LE). exists off. repeat split; auto. lia.
  - destruct KZ as (KM & s & IS & SD & SB & SE).
    unfold chunkBytes. destruct (Nat.leb_spec (kCut k) prev) as [|_]; [lia|].
    assert (USE : forall b', bBeg b' <= prev -> kCut k <= bEndx b' ->
      firstn (kCut k - prev) (skipn (prev - bBeg b') (bytesOf f (bBeg b') (bEndx b'))) = slice f prev (kCut k)).
    { intros b' B1 B2. rewrite bytesOf_slice. apply slice_sub; auto. lia. }
    destruct ((bBeg b <=? prev) && (kCut k <=? bEndx b)) eqn:INS.
    + rewrite andb_true_iff, !Nat.leb_le in INS. destruct INS as [I1 I2].
      cbn [bind fst snd]. rewrite USE by auto. rewrite IH; auto.
      destruct BI as (off & T & IN & LE). exists off. repeat split; auto. lia.
    + destruct BI as (off & T & IN & LE).
      destruct (findSpan_ok _ _ _ prev T LE) as (s' & ss & FE & FC & FI & FN & FT); [lia|].
      assert (s' = s).
      { apply (tile_unique all 0 (length f) TA s' s prev); auto; lia. }
      subst s'. unfold fillData. rewrite FE.
      destruct (Nat.ltb_spec (sBeg s) (kCut k)) as [_|]; [|lia].
      destruct (Nat.leb_spec (kCut k) (sEndx s)) as [_|]; [|lia]. cbn [andb bind bBeg bEndx].
      rewrite Nat.leb_refl.
      destruct (Nat.leb_spec (kCut k) (Nat.min (sEndx s) (prev + dmax))) as [_|]; [|lia].
      cbn [andb bind fst snd].
      assert (U := USE (mkBuf prev (Nat.min (sEndx s) (prev + dmax)) (s :: ss))).
      cbn [bBeg bEndx] in U. rewrite U by lia.
      rewrite IH; auto. exists (sBeg s). cbn [bSpans]. split; [auto|]. split; [|lia].
      intros x X. auto.
Qed.

Lemma chunksOf_describes : forall hsh max f spans ks prev, cutsOk max f spans prev ks ->
  consecutive prev (chunksOf hsh f prev ks) (endOf prev ks) /\
  Forall (truthful hsh f) (chunksOf hsh f prev ks) /\ bounded max (chunksOf hsh f prev ks).
Proof.
  unfold bounded. induction ks as [|k ks IH]; intros prev OK.
  - cbn. repeat split; constructor.
  - destruct OK as [(P & L & KP & KZ) OK]. destruct (IH _ OK) as (C & T & B).
    cbn [chunksOf endOf]. split; [|split].
    + cbn [consecutive kchunk cBeg cEndx]. auto.
    + constructor; [|exact T]. split; [reflexivity|]. unfold kchunk. cbn [cCry cBeg cEndx].
      destruct (kZero k); [|reflexivity]. exact KZ.
    + constructor; [|exact B]. unfold kchunk, cLen. cbn [cCry cBeg cEndx].
      destruct (kZero k); [congruence|]. intros _. apply KZ.
Qed.

Lemma summarize_ok : forall min max alg buf dmax hsh f spans, good_alg min max alg -> local_alg max alg ->
  stable_alg alg -> 0 < max -> max <= buf -> max <= dmax -> sparse_map f spans ->
  exists acc, spanLoop alg buf f spans 0 [] = Ok acc /\
    summarize hsh alg buf dmax f spans = Ok (chunksOf hsh f 0 (rev acc)) /\
    cutsOk max f spans 0 (rev acc) /\ endOf 0 (rev acc) = length f.
Proof.
  intros min max alg buf dmax hsh f spans G LO ST M MB MD [T H].
  destruct (spanLoop_ok min max alg buf f spans G LO ST M MB spans 0 [] (incl_refl _) T H I eq_refl)
    as (acc & E & OK & EN).
  exists acc. split; [auto|]. split; [|auto].
  unfold summarize, cutpointsAndAllZero. rewrite E. cbn [bind].
  destruct (rev acc) as [|k ks] eqn:R; [reflexivity|].
  assert (K : forall b, bSpans b = spans -> sumLoop hsh dmax f b 0 (k :: ks) = Ok (chunksOf hsh f 0 (k :: ks))).
  { intros b BE. apply (sumLoop_ok hsh max dmax f spans MD T); auto.
    exists 0. rewrite BE. repeat split; auto. apply incl_refl. }
  apply K. destruct spans as [|s ss]; [reflexivity|]. destruct (sKind s); reflexivity.
Qed.

(** ** The two scanners agree on a file without holes *)

Lemma fk_fc : forall hsh f cuts off fin ka ca, incr off cuts fin -> fin <= length f ->
  chunksOf hsh f 0 (rev ka) = rev ca -> endOf 0 (rev ka) = off ->
  Forall (fun k => kPre k = false) ka ->
  chunksOf hsh f 0 (rev (fk f off cuts ka)) = rev (fc hsh f off cuts ca).
Proof.
  induction cuts as [|c cs IH]; intros off fin ka ca I L E EN NP; [exact E|].
  destruct I as [I1 I2]. assert (IL := incr_le _ _ _ I2). cbn [fk fc].
  assert (LS : length (slice f off c) = c - off) by (rewrite slen; lia).
  assert (SN : forall k, chunksOf hsh f 0 (rev ka ++ [k]) = rev ca ++ [kchunk hsh f off k]).
  { intros k. rewrite chunksOf_app, E, EN. reflexivity. }
  assert (NEWZ : allZero (slice f off c) = true -> kchunk hsh f off (mkCut c true false) = mkChunk off c Rle0 [])
    by reflexivity.
  apply (IH _ fin); auto.
  - unfold addCut, addChunk. rewrite LS. replace (off + (c - off)) with c by lia.
    destruct ka as [|k ks]; destruct ca as [|ch chs].
    + cbn in EN. subst off. destruct (allZero (slice f 0 c)); reflexivity.
    + exfalso. cbn in E. destruct (rev chs); discriminate E.
    + exfalso. cbn [rev] in E. rewrite chunksOf_app in E. cbn in E.
      apply app_eq_nil in E. destruct E as [_ E]. discriminate E.
    + cbn [rev] in E. rewrite chunksOf_app in E. cbn [chunksOf] in E.
      apply app_inj_tail in E. destruct E as [E1 E2].
      inversion NP as [|x y NP1 NP2]; subst x y.
      rewrite endOf_rev_cons in EN.
      assert (CC : cCry ch = if kZero k then Rle0 else Hash (hsh (slice f (endOf 0 (rev ks)) (kCut k)))).
      { rewrite <- E2. reflexivity. }
      destruct (allZero (slice f off c)) eqn:AZ; cbn [andb].
      * rewrite NP1. cbn [negb]. rewrite andb_true_r. rewrite CC.
        destruct (kZero k) eqn:KZ.
        -- cbn [rev]. rewrite chunksOf_app, E1. f_equal. cbn [chunksOf].
           rewrite <- E2. unfold kchunk. cbn [kCut kZero cBeg cEndx]. f_equal. f_equal. lia.
        -- change (rev (mkCut c true false :: k :: ks)) with (rev (k :: ks) ++ [mkCut c true false]).
           rewrite SN. reflexivity.
      * change (rev (mkCut c false false :: k :: ks)) with (rev (k :: ks) ++ [mkCut c false false]).
        rewrite SN. reflexivity.
  - unfold addCut. destruct ka as [|k ks]; [reflexivity|].
    destruct (allZero (slice f off c) && kZero k && negb (kPre k)); apply endOf_rev_cons.
  - unfold addCut. destruct ka as [|k ks]; [repeat constructor|].
    inversion NP as [|x y NP1 NP2]; subst x y.
    destruct (allZero (slice f off c) && kZero k && negb (kPre k)); repeat constructor; auto.
Qed.

Lemma summarize_plain : forall min max alg buf dmax hsh f cuts, good_alg min max alg -> local_alg max alg ->
  stable_alg alg -> 0 < max -> max <= buf -> max <= dmax -> f <> [] -> cutpoints alg 0 f = Ok cuts ->
  summarize hsh alg buf dmax f [mkSpan 0 (length f) SData] = Ok (joinZeros (labelledAll hsh f 0 cuts)).
Proof.
  intros min max alg buf dmax hsh f cuts G LO ST M MB MD NE CE.
  assert (FL : 0 < length f) by (destruct f; [congruence|cbn; lia]).
  destruct (summarize_ok min max alg buf dmax hsh f [mkSpan 0 (length f) SData] G LO ST M MB MD)
    as (acc & E & SE & _).
  { split; [cbn; lia|]. repeat constructor. }
  rewrite SE. f_equal.
  destruct (cutpoints_steps min max alg f G) as (cs & CE' & S).
  assert (cs = cuts) by congruence. subst cs.
  cbn [spanLoop sKind sBeg sEndx] in E. rewrite Nat.eqb_refl in E.
  rewrite (dataSpan_fk min max alg buf f G LO ST M MB) with (cs := cuts) in E; try lia.
  - cbn [bind] in E. injection E as <-.
    assert (IC := steps_incr min max alg G 0 f cuts S). cbn [Nat.add] in IC.
    rewrite (fk_fc hsh f cuts 0 (length f) [] []); auto.
    apply (fc_all _ _ _ (length f)); auto.
  - rewrite slice_end. exact S.
Qed.

(** ** A buffer smaller than the largest chunk *)

Lemma one_loop_hangs : forall hsh alg max bufsz f, (forall d, d <> [] -> exists c, alg d = Ok c) ->
  0 < bufsz -> bufsz < max -> bufsz < length f ->
  forall fuel, oneLoop hsh alg max bufsz f fuel 0 (Nat.min (length f) bufsz) [] = Panic.
Proof.
  intros hsh alg max bufsz f T B BM L. induction fuel as [|fu IH]; [reflexivity|].
  cbn [oneLoop]. rewrite bytesOf_slice. rewrite Nat.min_r in * by lia.
  assert (LD : length (slice f 0 bufsz) = bufsz) by (rewrite slen; lia).
  destruct (slice f 0 bufsz) as [|x d] eqn:E; [cbn in LD; lia|]. rewrite <- E in *.
  destruct (T (slice f 0 bufsz)) as [c A]; [rewrite E; discriminate|]. rewrite A. cbn [bind].
  rewrite LD. destruct (Nat.leb_spec max bufsz); [lia|]. cbn [andb].
  destruct (Nat.eqb_spec bufsz (length f)); [lia|]. cbn [Nat.add]. rewrite Nat.min_r by lia. exact IH.
Qed.
