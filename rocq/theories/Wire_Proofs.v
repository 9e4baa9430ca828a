From Coq Require Import List NArith Lia Bool String Arith.
From Verif Require Import Base Wire_Model Wire_Spec.
Import ListNotations.
Open Scope N_scope.

(** ** Numbers *)
Lemma div_step : forall n k, n / 256 ^ (N.succ k) = (n / 256 ^ k) / 256.
Proof. intros. rewrite N.pow_succ_r', N.mul_comm, N.div_div; auto; try lia. Qed.

Lemma put_get : forall n, n < 2 ^ 64 -> getU64 (putU64 n) = n.
Proof.
  intros n H. unfold putU64, getU64. cbn [map fold_left].
  pose proof (div_step n 0) as E1. pose proof (div_step n 1) as E2. pose proof (div_step n 2) as E3.
  pose proof (div_step n 3) as E4. pose proof (div_step n 4) as E5. pose proof (div_step n 5) as E6.
  pose proof (div_step n 6) as E7.
  change (N.succ 0) with 1 in *. change (N.succ 1) with 2 in *. change (N.succ 2) with 3 in *.
  change (N.succ 3) with 4 in *. change (N.succ 4) with 5 in *. change (N.succ 5) with 6 in *.
  change (N.succ 6) with 7 in *.
  assert (E0 : n / 256 ^ 0 = n) by (rewrite N.pow_0_r, N.div_1_r; auto).
  assert (L : n / 256 ^ 7 < 256).
  { apply N.div_lt_upper_bound; [apply N.pow_nonzero; lia|]. change (256 ^ 7 * 256) with (2 ^ 64). auto. }
  remember (n / 256 ^ 0) as q0. remember (n / 256 ^ 1) as q1. remember (n / 256 ^ 2) as q2.
  remember (n / 256 ^ 3) as q3. remember (n / 256 ^ 4) as q4. remember (n / 256 ^ 5) as q5.
  remember (n / 256 ^ 6) as q6. remember (n / 256 ^ 7) as q7.
  pose proof (N.div_mod q0 256). pose proof (N.div_mod q1 256). pose proof (N.div_mod q2 256).
  pose proof (N.div_mod q3 256). pose proof (N.div_mod q4 256). pose proof (N.div_mod q5 256).
  pose proof (N.div_mod q6 256). pose proof (N.mod_small q7 256 L).
  rewrite <- ?E1, <- ?E2, <- ?E3, <- ?E4, <- ?E5, <- ?E6, <- ?E7 in *.
  lia.
Qed.

Lemma putU64_len : forall n, List.length (putU64 n) = 8%nat.
Proof. reflexivity. Qed.

Lemma bytes_eqb_true : forall a b, bytes_eqb a b = true <-> a = b.
Proof. intros. unfold bytes_eqb. destruct list_eq_dec; split; auto; discriminate. Qed.

(** ** readFull *)
Lemma streamOf_cons : forall ch e r, streamOf ((ch, e) :: r) = ch ++ streamOf r.
Proof. reflexivity. Qed.

Lemma readFull_ok : forall conn need got b conn',
  readFull conn need got = ((b, None), conn') ->
  (need <= List.length (streamOf conn))%nat /\
  b = got ++ firstn need (streamOf conn) /\
  streamOf conn' = skipn need (streamOf conn).
Proof.
  induction conn as [|[ch e] r IH]; intros need got b conn' H; destruct need as [|n]; cbn [readFull] in H.
  - inversion H; subst. rewrite app_nil_r. simpl. auto with arith.
  - discriminate.
  - inversion H; subst. rewrite app_nil_r. simpl. auto with arith.
  - rewrite streamOf_cons, app_length.
    destruct (Nat.ltb_spec (List.length ch) (S n)) as [L|L].
    + destruct e; [discriminate|].
      apply IH in H. destruct H as (A & B & C). subst b.
      split; [lia|]. rewrite firstn_app, skipn_app.
      rewrite (@firstn_all2 _ _ ch) by lia. rewrite (skipn_all2 ch) by lia.
      rewrite <- app_assoc. auto.
    + destruct (Nat.eqb_spec (List.length ch) (S n)) as [E|E].
      * inversion H; subst. rewrite firstn_app, skipn_app, E, Nat.sub_diag. simpl firstn at 2. simpl skipn at 2.
        rewrite (@firstn_all2 _ _ ch) by lia. rewrite (skipn_all2 ch) by lia. rewrite app_nil_r. split; [lia|auto].
      * inversion H; subst. rewrite streamOf_cons, firstn_app, skipn_app.
        replace (S n - List.length ch)%nat with 0%nat by lia.
        rewrite firstn_O, skipn_O, app_nil_r. split; [lia|]. auto.
Qed.

Lemma readFull_quiet : forall conn need got,
  quiet conn ->
  match readFull conn need got with
  | ((b, None), conn') => quiet conn'
  | ((b, Some x), conn') => x = ErrEOF /\ (List.length (streamOf conn) < need)%nat
  end.
Proof.
  induction conn as [|[ch e] r IH]; intros need got Q; destruct need as [|n]; cbn [readFull]; auto.
  - split; auto. simpl. lia.
  - inversion Q; subst. cbn [snd] in *. subst e.
    destruct (Nat.ltb_spec (List.length ch) (S n)) as [L|L].
    + specialize (IH (S n - List.length ch)%nat (got ++ ch) H2).
      destruct (readFull r _ _) as [[b [x|]] conn'].
      * destruct IH; split; auto. rewrite streamOf_cons, app_length. lia.
      * auto.
    + destruct (Nat.eqb_spec (List.length ch) (S n)); auto.
      constructor; auto.
Qed.

Lemma readFull_quiet_ok : forall conn need got,
  quiet conn -> (need <= List.length (streamOf conn))%nat ->
  exists conn', readFull conn need got = ((got ++ firstn need (streamOf conn), None), conn') /\
     streamOf conn' = skipn need (streamOf conn) /\ quiet conn'.
Proof.
  intros conn need got Q L. pose proof (readFull_quiet conn need got Q) as H.
  destruct (readFull conn need got) as [[b [x|]] conn'] eqn:E.
  - lia.
  - apply readFull_ok in E. destruct E as (_ & E & E2). subst b. eauto.
Qed.

(** ** writeFull *)
Lemma writeLoop_out : forall conn buf st hd dh r out c',
  writeLoop conn buf st hd dh = (r, out, c') ->
  (r = WDone -> out = buf) /\
  (r <> WDone -> exists rest, buf = out ++ rest /\ rest <> []).
Proof.
  induction conn as [|[n e] rest IH]; intros buf st hd dh r out c' H; destruct buf as [|x buf].
  - simpl in H. inversion H; subst. split; auto. intros E; elim E; auto.
  - simpl in H. inversion H; subst. split; [discriminate|]. intros _. exists (x :: buf); split; auto; discriminate.
  - simpl in H. inversion H; subst. split; auto. intros E; elim E; auto.
  - cbn [writeLoop] in H. remember (x :: buf) as B. clear HeqB x buf.
    destruct (skipn n B) as [|y ys] eqn:S.
    + inversion H; subst. rewrite <- (firstn_skipn n B) at 2. rewrite S, app_nil_r. split; auto.
      intros E; elim E; auto.
    + rewrite <- S in *.
      destruct e as [x|]; [destruct (_ && _) eqn:G|].
      * destruct (writeLoop rest _ _ _ _) as [[r2 o2] c2] eqn:W. inversion H; subst.
        apply IH in W. destruct W as [W1 W2]. split.
        -- intros E. rewrite (W1 E). apply firstn_skipn.
        -- intros E. destruct (W2 E) as (z & E1 & E2). exists z; split; auto.
           rewrite <- app_assoc, <- E1. symmetry; apply firstn_skipn.
      * inversion H; subst. split; [discriminate|]. intros _. exists (skipn n B). split.
        -- symmetry; apply firstn_skipn.
        -- rewrite S; discriminate.
      * destruct (writeLoop rest _ _ _ _) as [[r2 o2] c2] eqn:W. inversion H; subst.
        apply IH in W. destruct W as [W1 W2]. split.
        -- intros E. rewrite (W1 E). apply firstn_skipn.
        -- intros E. destruct (W2 E) as (z & E1 & E2). exists z; split; auto.
           rewrite <- app_assoc, <- E1. symmetry; apply firstn_skipn.
Qed.

Lemma write3_out : forall conn a b d dl r out c',
  write3 conn a b d dl = (r, out, c') ->
  (r = WDone -> out = a ++ b ++ d) /\
  (r <> WDone -> exists rest, a ++ b ++ d = out ++ rest).
Proof.
  unfold write3, writeFull. intros conn a b d dl r out c' H.
  destruct (writeLoop conn a _ _ _) as [[r1 o1] c1] eqn:E1. apply writeLoop_out in E1. destruct E1 as [A1 B1].
  destruct r1; try (inversion H; subst; split; [discriminate|]; intros _;
    destruct B1 as (z & -> & _); [discriminate|]; exists (z ++ b ++ d); rewrite <- app_assoc; auto).
  rewrite (A1 eq_refl) in *.
  destruct (writeLoop c1 b _ _ _) as [[r2 o2] c2] eqn:E2. apply writeLoop_out in E2. destruct E2 as [A2 B2].
  destruct r2; try (inversion H; subst; split; [discriminate|]; intros _;
    destruct B2 as (z & -> & _); [discriminate|]; exists (z ++ d); rewrite <- !app_assoc; auto).
  rewrite (A2 eq_refl) in *.
  destruct (writeLoop c2 d _ _ _) as [[r3 o3] c3] eqn:E3. apply writeLoop_out in E3. destruct E3 as [A3 B3].
  inversion H; subst. split.
  - intros E. rewrite A3; auto.
  - intros E. destruct B3 as (z & -> & _); auto. exists z. rewrite <- !app_assoc; auto.
Qed.

(** ** Frames *)

Lemma sendMessage_frame : forall c w last m conn dl r out c',
  sendMessage c w last m conn dl = Ok (r, out, c') ->
  exists tag body, frameOf c w last m = Ok (tag, body) /\
   (r = WDone -> out = frame tag body) /\ (r <> WDone -> exists z, frame tag body = out ++ z).
Proof.
  unfold sendMessage. intros c w last m conn dl r out c' H.
  destruct (frameOf c w last m) as [[tag body]|]; simpl in H; [|discriminate].
  exists tag, body. split; auto. inversion H. apply write3_out in H1. auto.
Qed.

(** The tag and body a frame carries determine the message again. *)
Lemma frameOf_inv : forall c w last m tag body,
  codec_ok c -> frameOf c w last m = Ok (tag, body) ->
  (tag = 0 \/ tag = 1 \/ tag = 7) /\ handleDecompress c tag body = Ok (marshal c m).
Proof.
  intros c w last m tag body [U D] H. unfold frameOf in H.
  destruct (AsGreenpack c m) as [b0|] eqn:A; simpl in H; [|discriminate].
  assert (b0 = marshal c m) as ->.
  { unfold AsGreenpack in A. destruct (_ <? _) in A; congruence. }
  destruct (w_compress w).
  - destruct (m_nosys m).
    + inversion H; subst. split; auto.
    + revert H. generalize (if w_server w
            then (if magic7b_out_of_bounds <=? last then w_default w else last)
            else w_default w).
      intros t H. unfold handleCompress in H.
      destruct (N.eqb_spec t 0); [inversion H; subst; auto|].
      destruct (N.eqb_spec t 1).
      * inversion H; subst. split; auto. unfold handleDecompress. simpl. rewrite D. auto.
      * destruct (N.eqb_spec t magic7b_no_system_compression); [|discriminate].
        inversion H; subst. split; auto.
  - inversion H; subst. auto.
Qed.

Lemma firstn_frame8 : forall tag body z, firstn 8 (frame tag body ++ z) = magic7bytes ++ [tag].
Proof. reflexivity. Qed.
Lemma skipn_frame8 : forall tag body z, skipn 8 (frame tag body ++ z) = putU64 (lenN body) ++ body ++ z.
Proof. intros. unfold frame. simpl. auto. Qed.
Lemma frame_len : forall tag body, List.length (frame tag body) = (16 + List.length body)%nat.
Proof. intros. unfold frame. rewrite !app_length, putU64_len. simpl. lia. Qed.

(** Reading, when the stream starts with a frame of a sendable tag. *)
Lemma readMessage_frame : forall c w last conn tag body m z,
  codec_ok c -> (tag = 0 \/ tag = 1 \/ tag = 7) ->
  handleDecompress c tag body = Ok (marshal c m) ->
  lenN body <= maxMessage ->
  quiet conn -> streamOf conn = frame tag body ++ z ->
  exists w' conn', readMessage c w last conn =
      Ok (RMsg m, w', (if tag =? 7 then (if w_decomp w then last else 7) else tag), conn') /\
    streamOf conn' = z /\ quiet conn' /\ w_compress w' = w_compress w /\ w_server w' = w_server w /\
    (w_decomp w = true -> w' = w).
Proof.
  intros c w last conn tag body m z [U D] T HD L Q S.
  unfold readMessage.
  destruct (readFull_quiet_ok conn 8 [] Q) as (c1 & E1 & S1 & Q1).
  { rewrite S, app_length, frame_len. lia. }
  rewrite E1. rewrite S in *. rewrite firstn_frame8. rewrite skipn_frame8 in S1.
  cbn [app].
  assert (B : bytes_eqb (firstn 7 (magic7bytes ++ [tag])) magic7bytes = true) by reflexivity.
  rewrite B. clear B. cbn [negb].
  replace (nth 7 (magic7bytes ++ [tag]) 0) with tag by reflexivity.
  destruct (readFull_quiet_ok c1 8 [] Q1) as (c2 & E2 & S2 & Q2).
  { rewrite S1, app_length, putU64_len. lia. }
  rewrite E2. rewrite S1 in *.
  replace (firstn 8 (putU64 (lenN body) ++ body ++ z)) with (putU64 (lenN body)) by reflexivity.
  replace (skipn 8 (putU64 (lenN body) ++ body ++ z)) with (body ++ z) in S2 by reflexivity.
  cbn [app]. rewrite put_get by (unfold maxMessage in L; lia).
  destruct (N.ltb_spec maxMessage (lenN body)) as [X|_]; [lia|].
  replace (N.to_nat (lenN body)) with (List.length body) by (unfold lenN; lia).
  destruct (readFull_quiet_ok c2 (List.length body) [] Q2) as (c3 & E3 & S3 & Q3).
  { rewrite S2, app_length. lia. }
  rewrite E3. rewrite S2 in *. rewrite skipn_app, skipn_all, Nat.sub_diag in S3. simpl in S3.
  rewrite firstn_app, firstn_all, Nat.sub_diag, firstn_O, app_nil_r. cbn [app].
  destruct (w_decomp w) eqn:DC; cbn [negb].
  - rewrite HD. unfold bind. rewrite U. exists w, c3. split.
    + f_equal. f_equal. f_equal. f_equal. destruct T as [->|[->| ->]]; reflexivity.
    + auto.
  - destruct T as [->|[->| ->]]; cbn [N.eqb negb magic7b_none Pos.eqb decodeMagic7 magic7b_no_system_compression
       magic7b_s2 magic7b_lz4 magic7b_zstd01 magic7b_zstd03 magic7b_zstd07 magic7b_zstd11];
    rewrite ?HD; unfold bind;
    try (inversion HD; subst body); rewrite U;
    do 2 eexists; (split; [reflexivity|]); simpl; repeat split; auto; discriminate.
Qed.
