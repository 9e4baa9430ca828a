From Coq Require Import List ZArith Lia Bool.
From Verif Require Import Base Sync_Model Sync_Spec.
Import ListNotations.
Open Scope nat_scope.

Lemma block_pos : 0 < block.
Proof. unfold block. change (2 ^ 12) with (S (2 ^ 12 - 1)). lia. Qed.

Global Opaque block.

Lemma zeros_length : forall n, length (zeros n) = n.
Proof. intros. apply repeat_length. Qed.

Lemma zeros_app : forall a b, zeros a ++ zeros b = zeros (a + b).
Proof. intros. unfold zeros. symmetry. apply repeat_app. Qed.

Lemma skipn_zeros : forall n m, skipn n (zeros m) = zeros (m - n).
Proof. induction n as [|n IH]; intros [|m]; simpl; auto; apply IH. Qed.

Lemma firstn_zeros : forall n m, firstn n (zeros m) = zeros (Nat.min n m).
Proof. induction n as [|n IH]; intros [|m]; simpl; auto. unfold zeros in *. simpl. f_equal. apply IH. Qed.

(** *** AlignedSparseSpan *)

Definition part (o : option span) (b e : nat) : Prop :=
  match o with None => b = e | Some (x, y) => x = b /\ y = e end.

Lemma aligned_parts : forall beg endx s pre post, beg < endx ->
  alignedSparseSpan beg endx = (s, pre, post) ->
  exists p q, beg <= p /\ p <= q /\ q <= endx /\
    part pre beg p /\ part s p q /\ part post q endx /\
    (q - p) mod block = 0 /\ endx - q < block /\
    (p - beg < block \/
     (s = None /\ q = endx /\ p = endx /\
      forall k, beg <= k * block -> (k + 1) * block <= endx -> False)).
Proof.
  intros beg endx s pre post L E. unfold alignedSparseSpan in E.
  assert (B := block_pos).
  destruct (Nat.leb_spec endx beg) as [H|_]; [lia|].
  destruct (Nat.ltb_spec (endx - beg) block) as [H|H].
  { inversion E; subst. exists endx, endx. cbn [part]. rewrite Nat.sub_diag, Nat.mod_0_l by lia.
    repeat split; try lia. }
  destruct (Nat.eqb_spec beg 0) as [->|NZ].
  - assert (DM := Nat.div_mod endx block ltac:(lia)).
    assert (MB := Nat.mod_upper_bound endx block ltac:(lia)).
    destruct (Nat.eqb_spec (endx mod block) 0) as [M|M]; inversion E; subst.
    + exists 0, endx. cbn [part]. rewrite Nat.sub_0_r. repeat split; try lia.
    + exists 0, (endx / block * block). cbn [part].
      rewrite Nat.sub_0_r, Nat.mod_mul by lia.
      repeat split; try lia.
  - set (start := if beg mod block =? 0 then beg else (beg / block + 1) * block) in *.
    assert (DM := Nat.div_mod beg block ltac:(lia)).
    assert (MB := Nat.mod_upper_bound beg block ltac:(lia)).
    assert (SB : beg <= start < beg + block /\ exists m, start = m * block).
    { unfold start. destruct (Nat.eqb_spec (beg mod block) 0) as [M|M].
      - split; [lia|]. exists (beg / block). lia.
      - split; [nia|]. eauto. }
    destruct SB as [SB [m SM]].
    destruct (Z.ltb_spec (Z.of_nat endx - Z.of_nat start) (Z.of_nat block)) as [A|A].
    + inversion E; subst s pre post. exists endx, endx. cbn [part].
      rewrite Nat.sub_diag, Nat.mod_0_l by lia.
      repeat split; try lia.
      right. repeat split; auto. intros k K1 K2.
      assert (m <= k). { rewrite SM in SB. destruct (Nat.le_gt_cases m k); auto. exfalso. nia. }
      nia.
    + inversion E; subst s pre post. clear E.
      set (n := (endx - start) / block).
      assert (DN := Nat.div_mod (endx - start) block ltac:(lia)).
      assert (MN := Nat.mod_upper_bound (endx - start) block ltac:(lia)).
      fold n in DN.
      exists start, (start + n * block).
      replace (start + n * block - start) with (n * block) by lia.
      rewrite Nat.mod_mul by lia.
      repeat split; try lia.
      unfold start. destruct (Nat.eqb_spec (beg mod block) 0); cbn [part]; auto.
Qed.

(** *** The taker's file *)

(** [h] is written, the rest of the [n] bytes is still zero. *)
Definition written (n : nat) (t : taker) : Prop :=
  length (tHashed t) <= n /\
  fPos (tFile t) = length (tHashed t) /\
  fBytes (tFile t) = tHashed t ++ zeros (n - length (tHashed t)).

Lemma fwrite_ne : forall f w, w <> [] -> fwrite f w =
  mkFile (firstn (fPos f) (fBytes f ++ zeros (fPos f - length (fBytes f)))
              ++ w ++ skipn (fPos f + length w) (fBytes f))
             (fPos f + length w).
Proof. intros f [|x w] H; [congruence|reflexivity]. Qed.

Lemma fwrite_written : forall n t w, written n t -> length (tHashed t) + length w <= n ->
  written n (mkTaker (fwrite (tFile t) w) (tHashed t ++ w)).
Proof.
  intros n t w (L & P & B) H. unfold written. cbn [tFile tHashed].
  rewrite app_length. split; [lia|].
  destruct w as [|x w].
  { cbn [fwrite length]. rewrite Nat.add_0_r, app_nil_r. auto. }
  assert (NE : x :: w <> []) by congruence. revert H NE. generalize (x :: w). intros w' H NE.
  rewrite (fwrite_ne _ _ NE). cbn [fBytes fPos]. rewrite P. split; [lia|].
  rewrite B.
  assert (LH : length (tHashed t ++ zeros (n - length (tHashed t))) = n)
    by (rewrite app_length, zeros_length; lia).
  rewrite LH.
  replace (length (tHashed t) - n) with 0 by lia. cbn [zeros repeat]. rewrite app_nil_r.
  rewrite firstn_app, firstn_all, Nat.sub_diag, firstn_O, app_nil_r.
  rewrite skipn_app, (skipn_all2 (tHashed t)) by lia.
  rewrite skipn_zeros. cbn [app]. rewrite <- app_assoc. f_equal. f_equal. f_equal. lia.
Qed.

Lemma punch_written : forall n t e k, written n t -> e = length (tHashed t) + k -> e <= n ->
  written n (mkTaker (fpunch (fseek (tFile t) e) (fPos (tFile t)) k) (tHashed t ++ zeros k)).
Proof.
  intros n t e k (L & P & B) E H. unfold written, fpunch, fseek. cbn [tFile tHashed fBytes fPos].
  rewrite app_length, zeros_length. split; [lia|]. split; [lia|].
  rewrite P, B.
  rewrite firstn_app, firstn_all, Nat.sub_diag, firstn_O, app_nil_r.
  rewrite skipn_app, (skipn_all2 (tHashed t)) by lia.
  rewrite skipn_zeros, app_length, zeros_length. cbn [app].
  rewrite <- app_assoc, !zeros_app. f_equal. f_equal. lia.
Qed.

Lemma takeWing_written : forall n t w b e, written n t -> part w b e -> b <= e ->
  b = length (tHashed t) -> e <= n -> e - b <= block ->
  exists t', takeWing t w = Ok t' /\ written n t' /\ tHashed t' = tHashed t ++ zeros (e - b).
Proof.
  intros n t w b e W PT L B E H. destruct w as [[x y]|]; cbn [part] in PT.
  - destruct PT as [-> ->]. unfold takeWing, zeros4k.
    rewrite (proj2 (Nat.leb_le (e - b) block) H). cbn [bind].
    eexists. split; [reflexivity|]. split; [|reflexivity].
    apply fwrite_written; auto. rewrite zeros_length. lia.
  - subst e. exists t. rewrite Nat.sub_diag. cbn [zeros repeat]. rewrite app_nil_r. auto.
Qed.

Lemma takeHole_written : forall n t s p q, written n t -> part s p q -> p <= q ->
  p = length (tHashed t) -> q <= n -> (q - p) mod block = 0 ->
  exists t', takeHole t s = Ok t' /\ written n t' /\ tHashed t' = tHashed t ++ zeros (q - p).
Proof.
  intros n t s p q W PT L B E M. destruct s as [[x y]|]; cbn [part] in PT.
  - destruct PT as [-> ->]. unfold takeHole. rewrite M. cbn [Nat.eqb].
    eexists. split; [reflexivity|]. split; [|reflexivity].
    apply punch_written; auto. lia.
  - subst q. exists t. rewrite Nat.sub_diag. cbn [zeros repeat]. rewrite app_nil_r. auto.
Qed.

Lemma takeWing_ok_inv : forall t b e t', takeWing t (Some (b, e)) = Ok t' -> e - b <= block.
Proof.
  intros t b e t' H. unfold takeWing, zeros4k in H.
  destruct (Nat.leb_spec (e - b) block); [auto|discriminate].
Qed.

Lemma takeRle0_written : forall n t c, written n t -> cBeg c = length (tHashed t) ->
  cBeg c < cEndx c -> cEndx c <= n ->
  (forall t', takeRle0 t c = Ok t' ->
     written n t' /\ tHashed t' = tHashed t ++ zeros (cLen c)) /\
  (cCry c = Rle0 -> writable_run c -> exists t', takeRle0 t c = Ok t').
Proof.
  intros n t c W B L E.
  assert (BP := block_pos).
  unfold takeRle0.
  destruct (alignedSparseSpan (cBeg c) (cEndx c)) as [[s pre] post] eqn:A.
  destruct (aligned_parts _ _ _ _ _ L A) as (p & q & P1 & P2 & P3 & PP & PS & PO & M & PL & PR).
  assert (K : p - cBeg c <= block ->
    exists t', (do t1 <- takeWing t pre; do t2 <- takeHole t1 s; takeWing t2 post) = Ok t' /\
    written n t' /\ tHashed t' = tHashed t ++ zeros (cLen c)).
  { intros H.
    destruct (takeWing_written n t pre (cBeg c) p) as (t1 & E1 & W1 & H1); auto; try lia.
    assert (L1 : length (tHashed t1) = p) by (rewrite H1, app_length, zeros_length; lia).
    destruct (takeHole_written n t1 s p q) as (t2 & E2 & W2 & H2); auto; try lia.
    assert (L2 : length (tHashed t2) = q) by (rewrite H2, app_length, zeros_length; lia).
    destruct (takeWing_written n t2 post q (cEndx c)) as (t3 & E3 & W3 & H3); auto; try lia.
    exists t3. rewrite E1. cbn [bind]. rewrite E2. cbn [bind]. split; auto. split; auto.
    rewrite H3, H2, H1, <- !app_assoc, !zeros_app. unfold cLen. do 2 f_equal. lia. }
  split.
  - intros t' H.
    assert (p - cBeg c <= block).
    { destruct PR as [PR|(-> & -> & -> & _)]; [lia|].
      destruct pre as [[x y]|]; cbn [part] in PP; [|lia].
      destruct PP as [-> ->].
      match type of H with bind ?m _ = _ => destruct m as [t1|] eqn:TW end; [|discriminate H].
      eapply takeWing_ok_inv; eauto. }
    destruct (K H0) as (t3 & E3 & W3 & H3). rewrite E3 in H. inversion H; subst. auto.
  - intros CR WR.
    assert (p - cBeg c <= block).
    { destruct PR as [PR|(-> & -> & -> & NP)]; [lia|].
      destruct (WR CR) as [S|(k & K1 & K2)]; [unfold cLen in S; lia|].
      exfalso; eauto. }
    destruct (K H) as (t3 & E3 & _). eauto.
Qed.

(** *** Any stream: what is on disk is what was hashed *)

(** Local lookups give as many bytes as the chunk is long. *)
Definition same_size_index (local : list chunk) (c : chunk) : Prop :=
  forall lc, cCry c <> Rle0 -> lookupCry local (cCry c) = Some lc -> cLen lc = cLen c.

Lemma takeChunk_written : forall n bufCap local orig t c t' pd,
  written n t -> cBeg c = length (tHashed t) -> cBeg c < cEndx c -> cEndx c <= n ->
  cCry c <> Unwrit -> same_size_index local c ->
  takeChunk pd bufCap local orig t c = Ok t' ->
  written n t' /\ length (tHashed t') = cEndx c.
Proof.
  intros n bufCap local orig t c t' pd W B L E U SI H.
  unfold takeChunk in H. destruct (cData c) as [|x d] eqn:D.
  - destruct (cCry c) as [| |h] eqn:CR; [| congruence |].
    + destruct (takeRle0_written n t c W B L E) as [K _].
      destruct (K _ H) as [W' H']. split; auto.
      rewrite H', app_length, zeros_length. unfold cLen. lia.
    + unfold takeLocal in H. rewrite CR in H.
      destruct (lookupCry local (Hash h)) as [lc|] eqn:LK; [|discriminate].
      assert (SL : cLen lc = cLen c). { apply SI; rewrite CR; [congruence|auto]. }
      unfold cLen in SL at 2.
      destruct (match orig with None => Ok (cData lc) | Some o => _ end) as [data|]; [|discriminate].
      cbn [bind] in H.
      destruct (Nat.eqb_spec (length data) (cLen lc)) as [DL|]; [|discriminate].
      inversion H; subst t'. split.
      * apply fwrite_written; auto. lia.
      * cbn [tHashed]. rewrite app_length. lia.
  - unfold takeShipped in H. rewrite D in H.
    destruct (Nat.eqb_spec (length (x :: d)) (cLen c)) as [DL|]; [|discriminate].
    unfold cLen in DL.
    inversion H; subst t'. split.
    + apply fwrite_written; auto. lia.
    + cbn [tHashed]. rewrite app_length. lia.
Qed.

Lemma consecutive_le : forall cs off n, consecutive off cs n -> off <= n.
Proof.
  induction cs as [|c cs IH]; intros off n H; cbn [consecutive] in H; [lia|].
  destruct H as (_ & H & K). apply IH in K. lia.
Qed.

Lemma consecutive_app : forall a b off n, consecutive off (a ++ b) n <->
  exists m, consecutive off a m /\ consecutive m b n.
Proof.
  induction a as [|c a IH]; intros b off n; cbn [consecutive app].
  - split; [intros H; exists off; auto|intros (m & -> & H); auto].
  - rewrite IH. split.
    + intros (H1 & H2 & m & H3 & H4). eauto 6.
    + intros (m & (H1 & H2 & H3) & H4). eauto 6.
Qed.

Lemma run_written : forall n bufCap local orig pd cs t t' m,
  written n t -> consecutive (length (tHashed t)) cs m -> m <= n ->
  Forall (fun c => cCry c <> Unwrit) cs -> Forall (same_size_index local) cs ->
  run_res (takeChunk pd bufCap local orig) t cs = Ok t' ->
  written n t' /\ length (tHashed t') = m.
Proof.
  intros n bufCap local orig pd. induction cs as [|c cs IH]; intros t t' m W C N U SI H.
  - cbn in *. inversion H; subst. auto.
  - cbn [consecutive] in C. destruct C as (C1 & C2 & C3).
    assert (LE := consecutive_le _ _ _ C3).
    inversion U; subst. inversion SI; subst.
    cbn [run_res] in H.
    destruct (takeChunk pd bufCap local orig t c) as [t1|] eqn:T; [|discriminate].
    destruct (takeChunk_written n bufCap local orig t c t1 pd) as [W1 L1]; auto; try lia.
    eapply IH; eauto. rewrite L1. auto.
Qed.

Definition frag_chunks (frags : list fragment) : list chunk := concat (map fst frags).

Lemma frags_commit : forall hsh cry pd bufCap local orig n frags t bytes,
  written n t -> consecutive (length (tHashed t)) (frag_chunks frags) n ->
  Forall (fun c => cCry c <> Unwrit) (frag_chunks frags) ->
  Forall (same_size_index local) (frag_chunks frags) ->
  (forall a cs b, frags = a ++ (cs, true) :: b -> frag_chunks b = []) ->
  takerFrags hsh cry pd bufCap local orig t frags = Ok (Some bytes) ->
  hsh bytes = cry /\ length bytes = n.
Proof.
  intros hsh cry pd bufCap local orig n. induction frags as [|[cs l] fs IH]; intros t bytes W C U SI LA H.
  - discriminate.
  - cbn [takerFrags] in H.
    change (frag_chunks ((cs, l) :: fs)) with (cs ++ frag_chunks fs) in *.
    apply consecutive_app in C. destruct C as (m & C1 & C2).
    apply Forall_app in U. destruct U as [U1 U2].
    apply Forall_app in SI. destruct SI as [S1 S2].
    destruct (run_res _ t cs) as [t1|] eqn:R; [|discriminate]. cbn [bind] in H.
    destruct (run_written n bufCap local orig pd cs t t1 m) as [W1 L1]; auto.
    { eapply consecutive_le; eauto. }
    destruct l.
    + destruct (Z.eqb_spec (hsh (tHashed t1)) cry) as [HC|]; [|discriminate].
      inversion H; subst bytes. clear H.
      assert (E := LA [] cs fs eq_refl). rewrite E in C2. cbn [consecutive] in C2.
      destruct W1 as (_ & _ & WB). rewrite WB, L1, C2, Nat.sub_diag. cbn [zeros repeat].
      rewrite app_nil_r. split; [auto|lia].
    + eapply (IH t1); eauto.
      * rewrite L1. auto.
      * intros a cs' b E. eapply (LA ((cs, false) :: a)). rewrite E. reflexivity.
Qed.

(** *** The plan and the packing *)

Lemma cry_eqb_spec : forall a b, cry_eqb a b = true <-> a = b.
Proof.
  intros [| |x] [| |y]; cbn; split; intros H; try discriminate; auto.
  - apply Z.eqb_eq in H. congruence.
  - inversion H. apply Z.eqb_refl.
Qed.

Lemma lookup_some : forall l k c, lookupCry l k = Some c -> In c l /\ cCry c = k.
Proof.
  intros l k c H. unfold lookupCry in H. apply find_some in H. destruct H as [H1 H2].
  apply in_rev in H1. apply cry_eqb_spec in H2. auto.
Qed.

Lemma lookup_none : forall l k c, In c l -> cCry c = k -> exists c', lookupCry l k = Some c'.
Proof.
  intros l k c I E. unfold lookupCry.
  destruct (find _ (rev l)) as [c'|] eqn:F; [eauto|].
  apply find_none with (x := c) in F; [|apply in_rev; rewrite rev_involutive; auto].
  exfalso. rewrite (proj2 (cry_eqb_spec _ _) E) in F. discriminate.
Qed.

(** What the giver ships for a chunk. *)
Definition shipped (bytes : list Z) (updateme : list chunk) (c : chunk) : chunk :=
  match cCry c with
  | Hash h => if hasCry updateme (Hash h) then c else withData c (slice bytes (cBeg c) (cEndx c))
  | _ => c
  end.

Lemma planMarks_ok : forall updateme goal, Forall (fun c => cData c = []) goal ->
  planMarks updateme goal =
  Ok (map (fun c => match cCry c with
                    | Hash h => if hasCry updateme (Hash h) then c else withData c marker
                    | _ => c
                    end) goal).
Proof.
  induction goal as [|c cs IH]; intros H; [reflexivity|].
  inversion H; subst. cbn [planMarks map]. rewrite H2, IH by auto. reflexivity.
Qed.

Lemma clone_nodata : forall c, cData c = [] -> cloneNoData c = c.
Proof. intros [b e k d] H. cbn in *. subst. reflexivity. Qed.

Lemma fillMark_ok : forall bytes updateme c, cData c = [] -> cBeg c <= cEndx c -> cEndx c <= length bytes ->
  fillMark bytes (match cCry c with
                  | Hash h => if hasCry updateme (Hash h) then c else withData c marker
                  | _ => c
                  end) = Ok (shipped bytes updateme c).
Proof.
  intros bytes updateme c D L E. unfold shipped.
  destruct (cCry c) as [| |h] eqn:CR; try (unfold fillMark; rewrite D, clone_nodata; auto).
  destruct (hasCry updateme (Hash h)); [unfold fillMark; rewrite D, clone_nodata; auto|].
  unfold fillMark. cbn [withData cData marker cCry cBeg cEndx cLen]. rewrite CR.
  unfold readFull, cLen. cbn [withData cBeg cEndx].
  rewrite (proj2 (Nat.leb_le _ _)) by lia. cbn [bind]. unfold slice. reflexivity.
Qed.

(** Filling the marks of the list. *)
Fixpoint fillAll (bytes : list Z) (cs : list chunk) : res (list chunk) :=
  match cs with
  | [] => Ok []
  | c :: cs' => do c' <- fillMark bytes c ; do r <- fillAll bytes cs' ; Ok (c' :: r)
  end.

Lemma takePack_split : forall msz max bytes cs have out,
  fillAll bytes cs = Ok out -> Forall (fun c => msz c < max) out ->
  exists k, takePack msz max bytes have cs = Ok (firstn k out, skipn k cs) /\ k <= length cs /\
    (have = 0 -> cs <> [] -> 0 < k) /\ fillAll bytes (skipn k cs) = Ok (skipn k out).
Proof.
  intros msz max bytes. induction cs as [|c cs IH]; intros have out F M.
  - cbn in F. inversion F; subst. exists 0. cbn. repeat split; auto. congruence.
  - cbn [fillAll] in F. destruct (fillMark bytes c) as [lc|] eqn:FM; [|discriminate]. cbn [bind] in F.
    destruct (fillAll bytes cs) as [r|] eqn:FA; [|discriminate]. cbn [bind] in F.
    inversion F; subst out. clear F. inversion M; subst.
    cbn [takePack]. rewrite FM. cbn [bind].
    destruct (Nat.ltb_spec (have + msz lc) max) as [H|H].
    + destruct (IH (have + msz lc) r eq_refl H2) as (k & E & K1 & K2 & K3).
      exists (S k). rewrite E. cbn [bind fst snd firstn skipn length]. repeat split; auto; lia.
    + exists 0. cbn [firstn skipn]. repeat split; auto; try lia.
      cbn [fillAll]. rewrite FM, FA. reflexivity.
Qed.

Lemma packAll_ok : forall msz max bytes fuel cs out, length cs <= fuel ->
  fillAll bytes cs = Ok out -> Forall (fun c => msz c < max) out ->
  exists frags, packAll fuel msz max bytes cs = Ok frags /\ frag_chunks frags = out /\
    (out <> [] -> exists a p, frags = a ++ [(p, true)] /\ Forall (fun f => snd f = false) a) /\
    (out = [] -> frags = []).
Proof.
  intros msz max bytes. induction fuel as [|fuel IH]; intros cs out L F M.
  - destruct cs; [|cbn in L; lia]. cbn in F. inversion F; subst. exists [].
    repeat split; auto. congruence.
  - destruct cs as [|c cs].
    { cbn in F. inversion F; subst. exists []. repeat split; auto. congruence. }
    destruct (takePack_split msz max bytes (c :: cs) 0 out F M) as (k & E & K1 & K2 & K3).
    assert (KP : 0 < k) by (apply K2; auto; congruence).
    destruct (IH (skipn k (c :: cs)) (skipn k out)) as (fr & E2 & C2 & N2 & Z2).
    { rewrite skipn_length. cbn [length] in *. lia. }
    { exact K3. }
    { rewrite <- (firstn_skipn k out) in M. apply Forall_app in M. apply M. }
    exists ((firstn k out, match skipn k (c :: cs) with [] => true | _ => false end) :: fr).
    cbn [packAll]. rewrite E. cbn [bind snd fst]. rewrite E2. cbn [bind].
    split; [reflexivity|].
    assert (ON : out <> []).
    { intros ->. cbn [fillAll] in F.
      destruct (fillMark bytes c) as [c'|]; [|discriminate]. cbn [bind] in F.
      destruct (fillAll bytes cs); discriminate. }
    split.
    { change (firstn k out ++ frag_chunks fr = out). rewrite C2. apply firstn_skipn. }
    split; [|congruence].
    intros _. destruct (skipn k (c :: cs)) as [|c2 cs2] eqn:SK.
    + cbn in K3. assert (SO : skipn k out = []) by congruence.
      rewrite (Z2 SO). exists [], (firstn k out). auto.
    + assert (SO : skipn k out <> []).
      { intros SO. rewrite SO in K3. cbn [fillAll] in K3.
        destruct (fillMark bytes c2); [|discriminate]. cbn [bind] in K3.
        destruct (fillAll bytes cs2); discriminate. }
      destruct (N2 SO) as (a & p & -> & FA).
      exists ((firstn k out, false) :: a), p. split; [reflexivity|]. constructor; auto.
Qed.

Lemma fillAll_map : forall bytes updateme goal, 
  Forall (fun c => cData c = [] /\ cBeg c <= cEndx c /\ cEndx c <= length bytes) goal ->
  fillAll bytes (map (fun c => match cCry c with
                    | Hash h => if hasCry updateme (Hash h) then c else withData c marker
                    | _ => c
                    end) goal) = Ok (map (shipped bytes updateme) goal).
Proof.
  induction goal as [|c cs IH]; intros H; [reflexivity|].
  inversion H as [|? ? (D & L & E) H']; subst. cbn [map fillAll].
  rewrite (fillMark_ok bytes updateme c D L E). cbn [bind]. rewrite IH; auto.
Qed.

(** *** Rebuilding the file *)

Lemma slice_length : forall bytes b e, e <= length bytes -> length (slice bytes b e) = e - b.
Proof. intros. unfold slice. rewrite firstn_length, skipn_length. lia. Qed.

Lemma firstn_slice : forall bytes b e, b <= e -> e <= length bytes ->
  firstn b bytes ++ slice bytes b e = firstn e bytes.
Proof.
  intros bytes b e L E. unfold slice.
  rewrite <- (firstn_skipn b (firstn e bytes)), firstn_firstn, Nat.min_l by lia. f_equal.
  rewrite skipn_firstn_comm. reflexivity.
Qed.

Lemma consecutive_bounds : forall cs off n, consecutive off cs n ->
  Forall (fun c => off <= cBeg c /\ cBeg c < cEndx c /\ cEndx c <= n) cs.
Proof.
  induction cs as [|c cs IH]; intros off n H; [constructor|].
  cbn [consecutive] in H. destruct H as (H1 & H2 & H3).
  assert (LE := consecutive_le _ _ _ H3).
  constructor; [lia|]. eapply Forall_impl; [|apply (IH _ _ H3)]. intros a HA. cbn in HA. lia.
Qed.

Section Rebuild.
Variable hsh : list Z -> Z.
Variables (goalBytes : list Z) (goal : list chunk) (updateme : list chunk).
Variables (bufCap : nat) (local : list chunk) (orig : option (list Z)).
Variable pd : bool.

(** The taker can find the bytes of every chunk the giver does not ship. *)
Hypothesis local_ok : forall c h, In c goal -> cCry c = Hash h -> hasCry updateme (Hash h) = true ->
  exists lc o, lookupCry local (Hash h) = Some lc /\ orig = Some o /\
    cLen lc <= bufCap /\ cBeg lc <= cEndx lc /\ cEndx lc <= length o /\
    slice o (cBeg lc) (cEndx lc) = slice goalBytes (cBeg c) (cEndx c).

Lemma takeChunk_goal : forall c t, In c goal -> truthful hsh goalBytes c -> writable_run c ->
  cBeg c < cEndx c -> cEndx c <= length goalBytes ->
  written (length goalBytes) t -> tHashed t = firstn (cBeg c) goalBytes ->
  exists t', takeChunk pd bufCap local orig t (shipped goalBytes updateme c) = Ok t' /\
    written (length goalBytes) t' /\ tHashed t' = firstn (cEndx c) goalBytes.
Proof.
  intros c t I (D & T) WR L E W H.
  assert (LH : length (tHashed t) = cBeg c) by (rewrite H, firstn_length; lia).
  unfold shipped. destruct (cCry c) as [| |h] eqn:CR; [| contradiction |].
  - unfold takeChunk. rewrite D, CR.
    destruct (takeRle0_written _ t c W (eq_sym LH) L E) as [K1 K2].
    destruct (K2 CR WR) as (t' & TE). exists t'.
    destruct (K1 _ TE) as [W' H']. rewrite TE. split; auto. split; auto.
    rewrite H', H, <- T. apply firstn_slice; lia.
  - assert (SW : forall d, d = slice goalBytes (cBeg c) (cEndx c) ->
       written (length goalBytes) (mkTaker (fwrite (tFile t) d) (tHashed t ++ d)) /\
       tHashed t ++ d = firstn (cEndx c) goalBytes).
    { intros d ->. split.
      - apply fwrite_written; auto. rewrite slice_length by lia. lia.
      - rewrite H. apply firstn_slice; lia. }
    destruct (hasCry updateme (Hash h)) eqn:HC.
    + unfold takeChunk. rewrite D, CR. unfold takeLocal. rewrite CR.
      destruct (local_ok c h I CR HC) as (lc & o & -> & -> & B1 & B2 & B3 & B4).
      rewrite (proj2 (Nat.leb_le _ _) B1). unfold readFull, cLen.
      rewrite (proj2 (Nat.leb_le _ _)) by lia. cbn [bind].
      change (firstn (cEndx lc - cBeg lc) (skipn (cBeg lc) o)) with (slice o (cBeg lc) (cEndx lc)).
      rewrite slice_length by lia. rewrite Nat.eqb_refl.
      destruct (SW _ B4) as [W' H']. eexists. split; [reflexivity|]. split; auto.
    + assert (SL := slice_length goalBytes (cBeg c) (cEndx c) E).
      unfold takeChunk. cbn [withData cData].
      destruct (slice goalBytes (cBeg c) (cEndx c)) as [|x d] eqn:SE; [cbn in SL; lia|].
      unfold takeShipped, cLen. cbn [withData cData cBeg cEndx].
      rewrite SL, Nat.eqb_refl.
      destruct (SW _ eq_refl) as [W' H']. eexists. split; [reflexivity|]. split; auto.
Qed.

Lemma run_goal : forall cs t off m, (forall c, In c cs -> In c goal) ->
  Forall (truthful hsh goalBytes) cs -> Forall writable_run cs ->
  consecutive off cs m -> m <= length goalBytes ->
  written (length goalBytes) t -> tHashed t = firstn off goalBytes ->
  exists t', run_res (takeChunk pd bufCap local orig) t (map (shipped goalBytes updateme) cs) = Ok t' /\
    written (length goalBytes) t' /\ tHashed t' = firstn m goalBytes.
Proof.
  induction cs as [|c cs IH]; intros t off m I T WR C M W H.
  - cbn [consecutive] in C. subst. exists t. auto.
  - cbn [consecutive] in C. destruct C as (C1 & C2 & C3). subst off.
    assert (LE := consecutive_le _ _ _ C3).
    inversion T; subst. inversion WR; subst.
    destruct (takeChunk_goal c t) as (t1 & E1 & W1 & H1); auto; try lia.
    { apply I. left; auto. }
    destruct (IH t1 (cEndx c) m) as (t2 & E2 & W2 & H2'); auto.
    { intros; apply I; right; auto. }
    exists t2. cbn [map run_res]. rewrite E1. auto.
Qed.

(** Cutting the shipped list into fragments does not matter. *)
Lemma frags_goal : forall cryv a p t, Forall (fun f : fragment => snd f = false) a ->
  (exists t', run_res (takeChunk pd bufCap local orig) t (frag_chunks (a ++ [(p, true)])) = Ok t' /\
    hsh (tHashed t') = cryv) ->
  exists t', run_res (takeChunk pd bufCap local orig) t (frag_chunks (a ++ [(p, true)])) = Ok t' /\
    takerFrags hsh cryv pd bufCap local orig t (a ++ [(p, true)]) = Ok (Some (fBytes (tFile t'))).
Proof.
  induction a as [|[cs l] a IH]; intros p t FA (t' & R & HC).
  - unfold frag_chunks in *. cbn [map concat app fst] in *. rewrite app_nil_r in *.
    exists t'. split; auto. cbn [takerFrags]. rewrite R. cbn [bind].
    rewrite HC, Z.eqb_refl. reflexivity.
  - inversion FA as [|? ? SF FA']; subst. cbn in SF. subst l.
    change (frag_chunks (((cs, false) :: a) ++ [(p, true)]))
      with (cs ++ frag_chunks (a ++ [(p, true)])) in *.
    rewrite run_res_app in R |- *. cbn [app takerFrags].
    destruct (run_res (takeChunk pd bufCap local orig) t cs) as [t1|]; [|discriminate]. cbn [bind].
    apply IH; auto. eauto.
Qed.
End Rebuild.

(** *** The whole exchange *)

Lemma hasCry_in : forall updateme h, hasCry updateme (Hash h) = true ->
  exists c, In c updateme /\ cCry c = Hash h.
Proof.
  intros updateme h H. unfold hasCry in H. apply existsb_exists in H. destruct H as (c & I & H).
  exists c. split; auto. destruct (cCry c); try discriminate. apply cry_eqb_spec in H. auto.
Qed.

Lemma describes_in : forall hsh bytes cs c, describes hsh bytes cs -> In c cs ->
  cBeg c < cEndx c /\ cEndx c <= length bytes /\ truthful hsh bytes c.
Proof.
  intros hsh bytes cs c [C T] I.
  assert (B := consecutive_bounds _ _ _ C). rewrite Forall_forall in B, T.
  specialize (B c I). specialize (T c I). cbn in B. repeat split; try lia; apply T.
Qed.

Lemma sync_rebuilds : forall hsh msz max bufCap goalBytes goal v local orig,
  describes hsh goalBytes goal ->
  match orig with
  | Some o => describes hsh o local /\ no_chunk_collision hsh goalBytes goal o local /\
              (hsh o = hsh goalBytes -> o = goalBytes)
  | None => local = []
  end ->
  vChunks v = local -> (forall h, vCry v = Some h -> exists o, orig = Some o /\ h = hsh o) ->
  Forall writable_run goal ->
  Forall (fun c => msz c < max /\
     (cCry c <> Rle0 -> msz (withData c (slice goalBytes (cBeg c) (cEndx c))) < max)) goal ->
  Forall (fun c => cCry c <> Rle0 -> cLen c <= bufCap) local ->
  syncFile hsh msz max bufCap (length goalBytes) 0 goalBytes goal goalBytes v local orig
  = Ok (Some goalBytes).
Proof.
  intros hsh msz max bufCap goalBytes goal v local orig DG DL VC VH WR MS BC.
  unfold syncFile. cbn [Nat.eqb andb].
  destruct (match vCry v with Some h => _ | None => false end) eqn:EQ.
  { destruct (vCry v) as [h|]; [|discriminate].
    destruct (VH h eq_refl) as (o & -> & ->). apply Z.eqb_eq in EQ.
    destruct DL as (_ & _ & K). rewrite (K EQ). reflexivity. }
  assert (FD : Forall (fun c => cData c = []) goal).
  { destruct DG as [_ T]. eapply Forall_impl; [|exact T]. intros a (D & _). auto. }
  rewrite planMarks_ok by auto. cbn [bind]. rewrite VC. rewrite map_length.
  assert (FA := fillAll_map goalBytes local goal).
  assert (FB : Forall (fun c => cData c = [] /\ cBeg c <= cEndx c /\ cEndx c <= length goalBytes) goal).
  { rewrite Forall_forall in *. intros c I. destruct (describes_in _ _ _ _ DG I) as (B1 & B2 & _).
    split; [apply FD; auto|lia]. }
  specialize (FA FB).
  assert (PK := fun L => packAll_ok msz max goalBytes (length goal) _ _ L FA).
  destruct PK as (frags & PE & FC & FL & FZ).
  { rewrite map_length. lia. }
  { rewrite Forall_forall in *. intros c' I. apply in_map_iff in I. destruct I as (c & <- & I).
    destruct (MS c I) as [M1 M2]. unfold shipped.
    destruct (cCry c) eqn:CR; auto. destruct (hasCry local (Hash h)); auto. apply M2. congruence. }
  rewrite PE. cbn [bind]. unfold takerPlan.
  destruct (Nat.eqb_spec (length goalBytes) 0) as [LZ|LN].
  { apply length_zero_iff_nil in LZ. rewrite LZ. reflexivity. }
  cbn [Nat.ltb Nat.leb].
  assert (GN : goal <> []).
  { intros ->. destruct DG as [C _]. cbn [consecutive] in C. lia. }
  destruct FL as (a & p & -> & FF).
  { destruct goal; [congruence|]. cbn [map]. congruence. }
  assert (W0 : written (length goalBytes) (takerStart (length goalBytes) 0)).
  { unfold written, takerStart. cbn [Nat.eqb ftruncate fBytes fPos tFile tHashed length].
    rewrite firstn_nil. cbn [app]. split; [lia|]. auto. }
  assert (LO : forall c h, In c goal -> cCry c = Hash h -> hasCry local (Hash h) = true ->
    exists lc o, lookupCry local (Hash h) = Some lc /\ orig = Some o /\
    cLen lc <= bufCap /\ cBeg lc <= cEndx lc /\ cEndx lc <= length o /\
    slice o (cBeg lc) (cEndx lc) = slice goalBytes (cBeg c) (cEndx c)).
  { intros c h I CR HC. destruct (hasCry_in _ _ HC) as (c1 & I1 & CR1).
    destruct (lookup_none local (Hash h) c1 I1 CR1) as (lc & LK).
    destruct (lookup_some _ _ _ LK) as [IL CL].
    destruct orig as [o|]; [|subst local; contradiction].
    destruct DL as (DL & NC & _).
    destruct (describes_in _ _ _ _ DL IL) as (B1 & B2 & _ & TL).
    destruct (describes_in _ _ _ _ DG I) as (B3 & B4 & _ & TG).
    rewrite CL in TL. rewrite CR in TG.
    exists lc, o. repeat split; auto; try lia.
    - rewrite Forall_forall in BC. apply BC; auto. congruence.
    - symmetry. apply NC; auto. congruence. }
  destruct (run_goal hsh goalBytes goal local bufCap local orig false LO goal
              (takerStart (length goalBytes) 0) 0 (length goalBytes)) as (t' & R & W & H).
  { auto. }
  { apply DG. }
  { auto. }
  { apply DG. }
  { lia. }
  { auto. }
  { reflexivity. }
  rewrite firstn_all in H.
  destruct (frags_goal hsh bufCap local orig false (hsh goalBytes) a p (takerStart (length goalBytes) 0) FF)
    as (t2 & R2 & K).
  { exists t'. unfold fragment in *. rewrite FC. split; auto. congruence. }
  unfold fragment in *. rewrite K. rewrite FC in R2. assert (t2 = t') by congruence. subst t2.
  destruct W as (_ & _ & WB). rewrite WB, H, Nat.sub_diag. cbn [zeros repeat].
  rewrite app_nil_r. reflexivity.
Qed.

(** *** Safety: sources that change under the sync *)

Lemma fillMark_shape : forall bytes c c', fillMark bytes c = Ok c' ->
  cBeg c' = cBeg c /\ cEndx c' = cEndx c /\ cCry c' = cCry c.
Proof.
  intros bytes c c' H. unfold fillMark in H.
  destruct (cData c).
  - inversion H; subst. auto.
  - destruct (cCry c) eqn:CR; [discriminate| |].
    + destruct (readFull bytes (cBeg c) (cLen c)); [|discriminate]. inversion H; subst. cbn. auto.
    + destruct (readFull bytes (cBeg c) (cLen c)); [|discriminate]. inversion H; subst. cbn. auto.
Qed.

Definition same_shape (c c' : chunk) : Prop :=
  cBeg c' = cBeg c /\ cEndx c' = cEndx c /\ cCry c' = cCry c.

Lemma takePack_shape : forall msz max bytes cs have p r,
  takePack msz max bytes have cs = Ok (p, r) ->
  exists a, cs = a ++ r /\ Forall2 same_shape a p.
Proof.
  intros msz max bytes. induction cs as [|c cs IH]; intros have p r H.
  - cbn in H. inversion H; subst. exists []. split; [reflexivity|constructor].
  - cbn [takePack] in H. destruct (fillMark bytes c) as [lc|] eqn:FM; [|discriminate]. cbn [bind] in H.
    destruct (have + msz lc <? max).
    + destruct (takePack msz max bytes (have + msz lc) cs) as [[p' r']|] eqn:TP; [|discriminate].
      cbn [bind fst snd] in H. inversion H; subst.
      destruct (IH _ _ _ TP) as (a & -> & F). exists (c :: a). split; [reflexivity|].
      constructor; auto. eapply fillMark_shape; eauto.
    + inversion H; subst. exists []. split; [reflexivity|constructor].
Qed.

Lemma packAll_shape : forall msz max bytes fuel cs frags,
  packAll fuel msz max bytes cs = Ok frags ->
  Forall2 same_shape cs (frag_chunks frags) /\
  (forall a p b, frags = a ++ (p, true) :: b -> b = []).
Proof.
  intros msz max bytes. induction fuel as [|fuel IH]; intros cs frags H.
  - destruct cs; [|discriminate]. inversion H; subst. split; [constructor|].
    intros [|]; discriminate.
  - destruct cs as [|c cs].
    { inversion H; subst. split; [constructor|]. intros [|]; discriminate. }
    cbn [packAll] in H. destruct (takePack msz max bytes 0 (c :: cs)) as [[p r]|] eqn:TP; [|discriminate].
    cbn [bind fst snd] in H.
    destruct (packAll fuel msz max bytes r) as [rest|] eqn:PA; [|discriminate]. cbn [bind] in H.
    inversion H; subst frags. clear H.
    destruct (takePack_shape _ _ _ _ _ _ _ TP) as (a & E & F).
    destruct (IH _ _ PA) as [F2 L2]. split.
    + rewrite E. change (frag_chunks ((p, _) :: rest)) with (p ++ frag_chunks rest).
      apply Forall2_app; auto.
    + intros [|x a'] q b E'; cbn [app] in E'; inversion E'; subst.
      * destruct r; [|discriminate].
        destruct fuel; cbn [packAll] in PA; inversion PA; auto.
      * eapply L2; eauto.
Qed.

Lemma shape_consecutive : forall cs cs', Forall2 same_shape cs cs' ->
  forall off n, consecutive off cs n -> consecutive off cs' n.
Proof.
  induction 1 as [|c c' cs cs' (E1 & E2 & _) F IH]; intros off n H; auto.
  cbn [consecutive] in *. rewrite E1, E2. destruct H as (H1 & H2 & H3). auto.
Qed.

Lemma marks_shape : forall updateme goal,
  Forall2 same_shape goal (map (fun c => match cCry c with
                    | Hash h => if hasCry updateme (Hash h) then c else withData c marker
                    | _ => c
                    end) goal).
Proof.
  induction goal as [|c cs IH]; [constructor|]. cbn [map]. constructor; auto.
  unfold same_shape. destruct (cCry c) eqn:CR; auto.
  destruct (hasCry updateme (Hash h)); cbn; auto.
Qed.

Lemma shape_trans : forall a b c, Forall2 same_shape a b -> Forall2 same_shape b c -> Forall2 same_shape a c.
Proof.
  intros a b c H. revert c. induction H as [|x y a b (E1 & E2 & E3) F IH]; intros c G.
  - inversion G; constructor.
  - inversion G as [|? z ? c' (G1 & G2 & G3) G']; subst. constructor; auto.
    unfold same_shape. repeat split; congruence.
Qed.

Lemma Forall2_in_r : forall A B (R : A -> B -> Prop) l l' y, Forall2 R l l' -> In y l' ->
  exists x, In x l /\ R x y.
Proof.
  intros A B R l l' y F. induction F as [|x z l l' H F IH]; intros I; [contradiction|].
  destruct I as [->|I].
  - exists x. split; [left; auto|auto].
  - destruct (IH I) as (w & W1 & W2). exists w. split; [right; auto|auto].
Qed.

Lemma sync_safe : forall hsh msz max bufCap goalBytes goal goalNow v old local now bytes,
  describes hsh goalBytes goal ->
  describes hsh old local -> no_chunk_collision hsh goalBytes goal old local ->
  vCry v <> Some (hsh goalBytes) ->
  syncFile hsh msz max bufCap (length goalBytes) 0 goalBytes goal goalNow v local now = Ok (Some bytes) ->
  goalBytes <> [] ->
  hsh bytes = hsh goalBytes /\ length bytes = length goalBytes.
Proof.
  intros hsh msz max bufCap goalBytes goal goalNow v old local now bytes DG DO NC VN H NE.
  unfold syncFile in H. cbn [Nat.eqb andb] in H.
  destruct (match vCry v with Some h => _ | None => false end) eqn:EQ.
  { destruct (vCry v) as [h|]; [|discriminate]. apply Z.eqb_eq in EQ. congruence. }
  assert (FD : Forall (fun c => cData c = []) goal).
  { destruct DG as [_ T]. eapply Forall_impl; [|exact T]. intros a (D & _). auto. }
  rewrite planMarks_ok in H by auto. cbn [bind] in H.
  destruct (packAll _ msz max goalNow _) as [frags|] eqn:PA; [|discriminate]. cbn [bind] in H.
  destruct (packAll_shape _ _ _ _ _ _ PA) as [SH LA].
  assert (SH2 := shape_trans _ _ _ (marks_shape (vChunks v) goal) SH).
  unfold takerPlan in H.
  destruct (Nat.eqb_spec (length goalBytes) 0) as [LZ|LN].
  { apply length_zero_iff_nil in LZ. congruence. }
  eapply frags_commit; [| | | | |exact H].
  - unfold written, takerStart. cbn [Nat.eqb ftruncate fBytes fPos tFile tHashed length].
    rewrite firstn_nil. cbn [app]. split; [lia|]. auto.
  - cbn [takerStart tHashed length]. eapply shape_consecutive; [exact SH2|]. apply DG.
  - apply Forall_forall. intros c' I. destruct (Forall2_in_r _ _ _ _ _ _ SH2 I) as (c & IC & _ & _ & EC).
    destruct (describes_in _ _ _ _ DG IC) as (_ & _ & _ & T). rewrite EC. intros U. rewrite U in T. auto.
  - apply Forall_forall. intros c' I lc NR LK.
    destruct (Forall2_in_r _ _ _ _ _ _ SH2 I) as (c & IC & E1 & E2 & EC).
    destruct (lookup_some _ _ _ LK) as [IL CL].
    destruct (describes_in _ _ _ _ DG IC) as (B1 & B2 & _ & T).
    destruct (describes_in _ _ _ _ DO IL) as (B3 & B4 & _ & TL).
    unfold cLen. rewrite E1, E2.
    rewrite EC in CL. rewrite CL in TL.
    destruct (cCry c) as [| |h] eqn:CR; [|contradiction|].
    + congruence.
    + assert (S := NC c lc IC IL ltac:(congruence)).
      assert (L1 := slice_length goalBytes (cBeg c) (cEndx c) B2).
      assert (L2 := slice_length old (cBeg lc) (cEndx lc) B4).
      rewrite S in L1. lia.
  - intros a cs b E. rewrite (LA _ _ _ E). reflexivity.
Qed.

(** *** The in-memory version *)

Fixpoint good_holes (g : list Z) (off : nat) (holes : list span) : Prop :=
  match holes with
  | [] => off <= length g
  | (b, e) :: hs => off <= b /\ b <= e /\ e <= length g /\ slice g b e = zeros (e - b) /\ good_holes g e hs
  end.

Lemma good_holes_weaken : forall g hs off off', off' <= off -> good_holes g off hs -> good_holes g off' hs.
Proof. intros g [|[b e] hs] off off' L H; cbn [good_holes] in *; [lia|]. intuition lia. Qed.

Lemma good_holes_le : forall g hs off, good_holes g off hs -> off <= length g.
Proof. intros g [|[b e] hs] off H; cbn [good_holes] in *; [lia|]. lia. Qed.

Lemma memWrite_ok : forall g holes off f,
  written (length g) (mkTaker f (firstn off g)) -> good_holes g off holes ->
  exists f', memWrite f g off holes = Ok f' /\ fBytes f' = g.
Proof.
  intros g. induction holes as [|[b e] hs IH]; intros off f W GH.
  - cbn [good_holes] in GH. cbn [memWrite]. eexists. split; [reflexivity|].
    destruct (Nat.ltb_spec off (length g)) as [L|L].
    + assert (K := fwrite_written _ _ (skipn off g) W). cbn [tHashed tFile] in K.
      rewrite firstn_length, skipn_length, Nat.min_l, firstn_skipn in K by lia.
      destruct K as (_ & _ & KB); [lia|]. cbn [tFile tHashed] in KB.
      rewrite Nat.sub_diag in KB. cbn [zeros repeat] in KB. rewrite app_nil_r in KB. auto.
    + destruct W as (_ & _ & WB). cbn [tFile tHashed] in WB. rewrite WB.
      rewrite firstn_all2 by lia. rewrite Nat.sub_diag. cbn [zeros repeat]. apply app_nil_r.
  - cbn [good_holes] in GH. destruct GH as (H1 & H2 & H3 & H4 & H5).
    cbn [memWrite].
    assert (F1 : exists f1, (if off <? b
       then if b <=? length g then Ok (fwrite f (firstn (b - off) (skipn off g))) else Panic
       else Ok f) = Ok f1 /\ written (length g) (mkTaker f1 (firstn b g))).
    { destruct (Nat.ltb_spec off b) as [L|L].
      - rewrite (proj2 (Nat.leb_le _ _)) by lia. eexists. split; [reflexivity|].
        assert (K := fwrite_written _ _ (slice g off b) W). cbn [tHashed tFile] in K.
        rewrite firstn_length, slice_length, firstn_slice in K by lia. apply K. lia.
      - assert (off = b) by lia. subst. eauto. }
    destruct F1 as (f1 & E1 & W1). rewrite E1. cbn [bind].
    apply IH; auto.
    destruct W1 as (L1 & P1 & B1). cbn [tFile tHashed] in *.
    unfold written, fseek. cbn [tFile tHashed fBytes fPos].
    rewrite firstn_length, Nat.min_l by lia. split; [lia|]. split; [auto|].
    rewrite B1, <- (firstn_slice g b e), H4 by lia.
    rewrite <- app_assoc, zeros_app. f_equal. f_equal. rewrite firstn_length. lia.
Qed.

Lemma slice_zeros_sub : forall g b e p q, b <= p -> p <= q -> q <= e -> e <= length g ->
  slice g b e = zeros (e - b) -> slice g p q = zeros (q - p).
Proof.
  intros g b e p q H1 H2 H3 H4 H. unfold slice in *.
  assert (E : firstn (q - p) (skipn p g) = firstn (q - p) (skipn (p - b) (firstn (e - b) (skipn b g)))).
  { rewrite skipn_firstn_comm, skipn_skipn, firstn_firstn.
    replace (p - b + b) with p by lia. f_equal. lia. }
  rewrite E, H, skipn_zeros, firstn_zeros. f_equal. lia.
Qed.

Lemma holesOf_good : forall g cs off n, consecutive off cs n -> n <= length g ->
  Forall (fun c => cCry c = Rle0 -> slice g (cBeg c) (cEndx c) = zeros (cLen c)) cs ->
  good_holes g off (holesOf cs).
Proof.
  intros g. induction cs as [|c cs IH]; intros off n C N Z.
  - cbn in *. lia.
  - cbn [consecutive] in C. destruct C as (C1 & C2 & C3). inversion Z as [|? ? Z1 Z2]; subst.
    assert (LE := consecutive_le _ _ _ C3).
    assert (IHc := IH _ _ C3 N Z2).
    change (holesOf (c :: cs)) with ((match cCry c with
                     | Rle0 => match alignedSparseSpan (cBeg c) (cEndx c) with
                               | (Some s, _, _) => [s]
                               | _ => []
                               end
                     | _ => []
                     end) ++ holesOf cs).
    assert (D : good_holes g (cBeg c) (holesOf cs)) by (eapply good_holes_weaken; [|exact IHc]; lia).
    destruct (cCry c) eqn:CR; auto.
    destruct (alignedSparseSpan (cBeg c) (cEndx c)) as [[s pre] post] eqn:A.
    destruct (aligned_parts _ _ _ _ _ C2 A) as (p & q & P1 & P2 & P3 & _ & PS & _).
    destruct s as [[x y]|]; auto.
    cbn [part] in PS. destruct PS as [-> ->]. cbn [app good_holes].
    repeat split; try lia.
    + eapply slice_zeros_sub; [| | | |apply Z1; auto]; unfold cLen; lia.
    + eapply good_holes_weaken; [|exact IHc]. lia.
Qed.

(** What the plan without placeholders holds for a chunk. *)
Definition planned (updateme : list chunk) (c : chunk) : chunk :=
  match cCry c with
  | Hash h => if hasCry updateme (Hash h) then cloneNoData c else c
  | _ => cloneNoData c
  end.

Lemma planFull_ok : forall blob updateme goalBytes goal,
  Forall (fun c => cBeg c < cEndx c /\ cEndx c <= length goalBytes /\ carries goalBytes c) goal ->
  planFull blob updateme goal = Ok (map (planned updateme) goal).
Proof.
  intros blob updateme goalBytes. induction goal as [|c cs IH]; intros H; [reflexivity|].
  inversion H as [|? ? (B1 & B2 & CA) H']; subst. cbn [planFull map]. rewrite IH by auto.
  unfold planned at 2. destruct (cCry c) as [| |h] eqn:CR; auto.
  destruct (hasCry updateme (Hash h)); auto.
  unfold carries in CA. rewrite CR in CA.
  assert (L := slice_length goalBytes (cBeg c) (cEndx c) B2). rewrite <- CA in L.
  destruct (cData c); [cbn in L; lia|]. reflexivity.
Qed.

Lemma holesOf_planned : forall updateme goal, holesOf (map (planned updateme) goal) = holesOf goal.
Proof.
  induction goal as [|c cs IH]; [reflexivity|]. unfold holesOf in *. cbn [map flat_map].
  rewrite IH. f_equal. unfold planned.
  destruct (cCry c) eqn:CR; cbn [cloneNoData cCry cBeg cEndx]; rewrite ?CR; auto.
  destruct (hasCry updateme (Hash h)); cbn [cloneNoData cCry cBeg cEndx]; rewrite ?CR; auto.
Qed.

Definition truthful_meta (hsh : list Z -> Z) (bytes : list Z) (c : chunk) : Prop :=
  truthful hsh bytes (cloneNoData c).

Lemma mem_step : forall hsh goalBytes old local c,
  cBeg c < cEndx c -> cEndx c <= length goalBytes ->
  truthful_meta hsh goalBytes c -> carries goalBytes c ->
  Forall (fun l => cBeg l < cEndx l /\ cEndx l <= length old /\ truthful_meta hsh old l /\ carries old l) local ->
  (forall l, In l local -> hsh (slice goalBytes (cBeg c) (cEndx c)) = hsh (slice old (cBeg l) (cEndx l)) ->
     slice goalBytes (cBeg c) (cEndx c) = slice old (cBeg l) (cEndx l)) ->
  memChunk (length goalBytes) local (firstn (cBeg c) goalBytes, firstn (cBeg c) goalBytes)
    (planned (map cloneNoData local) c)
  = Ok (firstn (cEndx c) goalBytes, firstn (cEndx c) goalBytes).
Proof.
  intros hsh goalBytes old local c B1 B2 [_ T] CA LO NC.
  assert (FS := firstn_slice goalBytes (cBeg c) (cEndx c) ltac:(lia) B2).
  assert (SL := slice_length goalBytes (cBeg c) (cEndx c) B2).
  assert (LF : length (firstn (cBeg c) goalBytes) = cBeg c) by (rewrite firstn_length; lia).
  unfold planned. cbn [cloneNoData cCry cBeg cEndx cLen] in T.
  destruct (cCry c) as [| |h] eqn:CR; [|contradiction|].
  - unfold memChunk. cbn [cloneNoData cCry cBeg cEndx cLen]. rewrite CR.
    change (cLen (cloneNoData c)) with (cEndx c - cBeg c).
    rewrite LF, firstn_zeros, Nat.min_r by lia.
    change (cLen (mkChunk (cBeg c) (cEndx c) Rle0 [])) with (cEndx c - cBeg c) in T.
    unfold cLen in T. cbn [cloneNoData cBeg cEndx] in T. rewrite <- T, FS. reflexivity.
  - assert (K : forall d, d = slice goalBytes (cBeg c) (cEndx c) ->
       (if length (firstn (cBeg c) goalBytes) + length d <=? length goalBytes
        then Ok (firstn (cBeg c) goalBytes ++ d, firstn (cBeg c) goalBytes ++ d) else Panic)
       = Ok (firstn (cEndx c) goalBytes, firstn (cEndx c) goalBytes)).
    { intros d ->. rewrite LF, SL, (proj2 (Nat.leb_le _ _)) by lia. rewrite FS. reflexivity. }
    destruct (hasCry (map cloneNoData local) (Hash h)) eqn:HC.
    + destruct (hasCry_in _ _ HC) as (c1 & I1 & CR1). apply in_map_iff in I1.
      destruct I1 as (c2 & <- & I2). cbn [cloneNoData cCry] in CR1.
      destruct (lookup_none local (Hash h) c2 I2 CR1) as (lc & LK).
      destruct (lookup_some _ _ _ LK) as [IL CL].
      rewrite Forall_forall in LO. destruct (LO lc IL) as (L1 & L2 & [_ LT] & LC).
      cbn [cloneNoData cCry cBeg cEndx] in LT. rewrite CL in LT.
      unfold carries in LC. rewrite CL in LC.
      unfold memChunk. cbn [cloneNoData cCry cData]. rewrite CR, LK.
      assert (LL := slice_length old (cBeg lc) (cEndx lc) L2).
      rewrite LC. unfold cLen. rewrite LL, Nat.eqb_refl. cbn [bind].
      apply K. symmetry. apply NC; auto. congruence.
    + unfold memChunk. rewrite CR. unfold carries in CA. rewrite CR in CA.
      destruct (cData c) as [|x d] eqn:D; [rewrite <- CA in SL; cbn in SL; lia|].
      unfold cLen. rewrite CA, SL, Nat.eqb_refl. cbn [bind]. apply K. auto.
Qed.

Lemma mem_run : forall hsh goalBytes old local cs off n,
  consecutive off cs n -> n <= length goalBytes ->
  Forall (fun c => truthful_meta hsh goalBytes c /\ carries goalBytes c) cs ->
  Forall (fun l => cBeg l < cEndx l /\ cEndx l <= length old /\ truthful_meta hsh old l /\ carries old l) local ->
  no_chunk_collision hsh goalBytes cs old local ->
  run_res (memChunk (length goalBytes) local) (firstn off goalBytes, firstn off goalBytes)
    (map (planned (map cloneNoData local)) cs)
  = Ok (firstn n goalBytes, firstn n goalBytes).
Proof.
  intros hsh goalBytes old local. induction cs as [|c cs IH]; intros off n C N T LO NC.
  - cbn [consecutive] in C. subst. reflexivity.
  - cbn [consecutive] in C. destruct C as (C1 & C2 & C3). subst off.
    assert (LE := consecutive_le _ _ _ C3). inversion T as [|? ? (T1 & T2) T3]; subst.
    cbn [map run_res]. rewrite (mem_step hsh goalBytes old local c); auto; try lia.
    + apply IH; auto. intros c1 c2 I1 I2. apply NC; auto. right; auto.
    + intros l IL. apply NC; auto. left; auto.
Qed.

Lemma update_local_ok : forall hsh goalBytes goal old local,
  consecutive 0 goal (length goalBytes) -> consecutive 0 local (length old) ->
  Forall (fun c => truthful hsh goalBytes (cloneNoData c) /\ carries goalBytes c) goal ->
  Forall (fun c => truthful hsh old (cloneNoData c) /\ carries old c) local ->
  no_chunk_collision hsh goalBytes goal old local ->
  exists plan, planFull [] (map cloneNoData local) goal = Ok plan /\
    updateLocal hsh local (length goalBytes) (hsh goalBytes) plan = Ok goalBytes.
Proof.
  intros hsh goalBytes goal old local CG CL TG TL NC.
  exists (map (planned (map cloneNoData local)) goal).
  assert (BG := consecutive_bounds _ _ _ CG). assert (BL := consecutive_bounds _ _ _ CL).
  split.
  { apply (planFull_ok [] _ goalBytes). rewrite Forall_forall in *. intros c I.
    destruct (BG c I) as (_ & B1 & B2). destruct (TG c I). auto. }
  unfold updateLocal.
  destruct (Nat.eqb_spec (length goalBytes) 0) as [LZ|LN].
  { apply length_zero_iff_nil in LZ. rewrite LZ. reflexivity. }
  destruct (exists_last (l := goal)) as (g' & c & E).
  { intros ->. cbn in CG. lia. }
  assert (EE : cEndx c = length goalBytes).
  { rewrite E in CG. apply consecutive_app in CG. destruct CG as (m & _ & _ & _ & K). exact K. }
  assert (RV : rev (map (planned (map cloneNoData local)) goal)
     = planned (map cloneNoData local) c :: rev (map (planned (map cloneNoData local)) g')).
  { rewrite E, map_app, rev_app_distr. reflexivity. }
  rewrite RV.
  assert (PE : cEndx (planned (map cloneNoData local) c) = length goalBytes).
  { unfold planned. destruct (cCry c); cbn [cloneNoData cEndx]; auto.
    destruct (hasCry _ _); auto. }
  rewrite PE, Nat.ltb_irrefl. clear RV.
  assert (R := mem_run hsh goalBytes old local goal 0 (length goalBytes) CG (le_n _)).
  cbn [firstn] in R. rewrite R; clear R; auto.
  2:{ rewrite Forall_forall in *. intros l I. destruct (BL l I) as (_ & B1 & B2). destruct (TL l I). auto. }
  cbn [bind snd fst]. rewrite firstn_all, Z.eqb_refl, Nat.sub_diag. cbn [zeros repeat].
  rewrite app_nil_r, holesOf_planned.
  assert (GH : good_holes goalBytes 0 (holesOf goal)).
  { eapply holesOf_good; eauto. rewrite Forall_forall in *. intros x I CR.
    destruct (TG x I) as [[_ T] _]. cbn [cloneNoData cCry cBeg cEndx] in T. rewrite CR in T. exact T. }
  assert (W0 : forall f, fPos f = 0 -> fBytes f = zeros (length goalBytes) ->
     written (length goalBytes) (mkTaker f (firstn 0 goalBytes))).
  { intros f P B. unfold written. cbn [tFile tHashed firstn length app].
    rewrite Nat.sub_0_r. split; [lia|]. auto. }
  destruct (holesOf goal) as [|hh hs] eqn:HO.
  - unfold fwrite. destruct goalBytes as [|x gb]; [cbn in LN; lia|].
    cbn [fPos fBytes length Nat.sub zeros repeat app firstn Nat.add]. rewrite skipn_nil, app_nil_r.
    reflexivity.
  - destruct (memWrite_ok goalBytes (hh :: hs) 0 (ftruncate (mkFile [] 0) (length goalBytes))) as (f' & E1 & E2); auto.
    { apply W0; auto. cbn [ftruncate fBytes length]. rewrite firstn_nil, Nat.sub_0_r. reflexivity. }
    rewrite E1. cbn [bind]. rewrite E2. reflexivity.
Qed.
