(** Property theorems for the plaintext framing: C01-C05 and C37. *)
From Coq Require Import List NArith Lia Bool String Arith Permutation.
From Verif Require Import Base Wire_Model Wire_Spec Wire_Proofs Wire_Proofs2.
Import ListNotations.
Open Scope N_scope.

(** A small concrete codec, used by the examples only. *)
Definition exCodec : codec := mkCodec
  (fun m => (if m_nosys m then 1 else 0) :: lenN (m_job m) :: m_job m ++ m_rest m)
  (fun b => match b with
            | x :: n :: r => Some (mkMsg (x =? 1) (firstn (N.to_nat n) r) (skipn (N.to_nat n) r))
            | _ => None end)
  (fun b => 255 :: b)
  (fun b => match b with 255 :: r => Some r | _ => None end).

Lemma exCodec_ok : codec_ok exCodec.
Proof.
  split; [|reflexivity]. intros [n j r]. simpl. unfold lenN. rewrite Nnat.Nat2N.id.
  rewrite firstn_app, firstn_all, Nat.sub_diag, firstn_O, app_nil_r.
  rewrite skipn_app, skipn_all, Nat.sub_diag. simpl. destruct n; reflexivity.
Qed.

(** ** C01 *)

(** Whatever sequence of messages one endpoint sends with success (any
    compression setting on either side, any short writes), an endpoint that
    receives the bytes, cut into chunks in any way, reads exactly the messages
    sent, in order, and stops exactly at the end of the last one. *)
Theorem C01_framing_round_trip : forall c, codec_ok c ->
  forall sendCfg sendIsServer we wd0 l0, newPlainEndpoint sendCfg sendIsServer = Ok (we, wd0, l0) ->
  forall recvCfg recvIsServer we0 wd last, newPlainEndpoint recvCfg recvIsServer = Ok (we0, wd, last) ->
  forall calls outs, allSent c we calls outs ->
  Forall (fun o => lenN o <= maxMessage + 16) outs ->
  forall conn tail, quiet conn -> streamOf conn = List.concat outs ++ tail ->
  exists wd' last' conn',
    readLoop c (List.length calls) wd last conn = Ok (map s_msg calls, wd', last', conn', None) /\
    streamOf conn' = tail /\ quiet conn'.
Proof. intros. eapply readLoop_all; eauto using allSent_frames. Qed.
Print Assumptions C01_framing_round_trip.

(** And on a connection that fails or ends anywhere, at any byte, with any
    error, the messages delivered are a prefix of those sent; nothing else is
    ever delivered and the reader does not crash. *)
Theorem C01_framing_cut_connection : forall c, codec_ok c ->
  forall we calls outs, allSent c we calls outs ->
  Forall (fun o => lenN o <= maxMessage + 16) outs ->
  forall wd last conn tail, streamOf conn ++ tail = List.concat outs ->
  forall n, exists ms wd' last' conn' e,
    readLoop c n wd last conn = Ok (ms, wd', last', conn', e) /\
    (exists lost, map s_msg calls = ms ++ lost) /\
    (e = None -> List.length ms = n).
Proof. intros. eapply readLoop_prefix; eauto using allSent_frames. exists tail. auto. Qed.
Print Assumptions C01_framing_cut_connection.

(** The size condition of [C01_framing_round_trip] is needed and the sender does
    not check it: a message with a large header is sent with success and makes
    the receiver fail. *)
Theorem C01_oversize_sent_refuted :
  exists m, lenN (m_job m) <= maxMessage - 1024 /\
  forall cfg we wd last, CompressionOff cfg = true -> newPlainEndpoint cfg false = Ok (we, wd, last) ->
  (forall conn, Forall (fun p => snd p = None) conn -> sendMessage exCodec we last m conn false <> Panic) /\
  (forall conn out rest, sendMessage exCodec we last m conn false = Ok (WDone, out, rest) ->
     forall wd last rconn z, quiet rconn -> streamOf rconn = out ++ z ->
     exists last' conn', readMessage exCodec wd last rconn = Ok (RErr ErrTooLong, wd, last', conn')).
Proof.
  assert (exists r : bytes, lenN r = 1310640) as (r & LR).
  { exists (repeat 0 (N.to_nat 1310640)). unfold lenN. rewrite repeat_length. apply Nnat.N2Nat.id. }
  exists (mkMsg false [] r). split; [vm_compute; discriminate|].
  intros cfg we wd last Off New.
  unfold newPlainEndpoint, newWorkspace in New. rewrite Off in New. simpl in New.
  destruct (setMagicCheckWord (CompressAlgo cfg)) as [t|]; simpl in New; [|discriminate].
  inversion New; subst. clear New. split.
  - intros conn _. unfold sendMessage, frameOf. simpl. discriminate.
  - intros conn out rest H wd last0 rconn z Q S.
    apply sendMessage_frame in H. destruct H as (tag & body & F & O & _). rewrite (O eq_refl) in S. clear O out.
    assert (LB : lenN body = 1310642).
    { unfold frameOf in F. simpl in F. inversion F. unfold lenN. cbn [List.length app].
      unfold lenN in LR. rewrite !Nnat.Nat2N.inj_succ, LR. reflexivity. }
    clear F. unfold readMessage.
    destruct (readFull_quiet_ok rconn 8 [] Q) as (c1 & E1 & S1 & Q1).
    { rewrite S, app_length, frame_len. lia. }
    rewrite E1. rewrite S in *. rewrite firstn_frame8. rewrite skipn_frame8 in S1. cbn [app].
    assert (B : bytes_eqb (firstn 7 (magic7bytes ++ [tag])) magic7bytes = true) by reflexivity.
    rewrite B. clear B. cbn [negb].
    destruct (readFull_quiet_ok c1 8 [] Q1) as (c2 & E2 & S2 & Q2).
    { rewrite S1, app_length, putU64_len. lia. }
    rewrite E2. rewrite S1 in *.
    replace (firstn 8 (putU64 (lenN body) ++ body ++ z)) with (putU64 (lenN body)) by reflexivity.
    cbn [app]. rewrite put_get by (rewrite LB; reflexivity). rewrite LB.
    change (maxMessage <? 1310642) with true. cbv iota. eauto.
Qed.
Print Assumptions C01_oversize_sent_refuted.

Definition exOuts : list bytes :=
  [frame 1 (s2c exCodec (marshal exCodec (mkMsg false [1;2] []))); frame 7 (marshal exCodec (mkMsg true [3] []))].
Definition exStream : bytes := List.concat exOuts ++ [1].

Example C01_nonvacuous :
  exists we wd0 l0 we0 wd last outs calls conn,
    newPlainEndpoint (mkCfg false "s2") false = Ok (we, wd0, l0) /\
    newPlainEndpoint (mkCfg true "") true = Ok (we0, wd, last) /\
    List.length calls = 2%nat /\ allSent exCodec we calls outs /\
    Forall (fun o => lenN o <= maxMessage + 16) outs /\
    quiet conn /\ streamOf conn = List.concat outs ++ [1] /\ List.length conn = 3%nat.
Proof.
  do 6 eexists.
  exists exOuts.
  exists [mkSend 0 (mkMsg false [1;2] []) [(3%nat, None); (9%nat, Some ErrIO); (8%nat, None); (40%nat, None)] true;
          mkSend 0 (mkMsg true [3] []) [(40%nat, None); (40%nat, None); (40%nat, None)] true].
  exists [(firstn 5 exStream, None); (firstn 20 (skipn 5 exStream), None); (skipn 25 exStream, None)].
  split; [reflexivity|]. split; [reflexivity|]. split; [reflexivity|]. split.
  { simpl. split; [eexists; reflexivity|]. split; [eexists; reflexivity|]. exact I. }
  split; [repeat constructor; vm_compute; discriminate|].
  split; [repeat constructor|]. split; [|reflexivity].
  reflexivity.
Qed.

(** ** C02 *)

(** writeFull reports success only when every byte went out, exactly once and in
    order; on failure the wire holds a strict prefix. *)
Theorem C02_writeFull_all_or_prefix : forall conn buf deadline r out rest,
  writeFull conn buf deadline = (r, out, rest) ->
  (r = WDone <-> out = buf) /\
  exists lost, buf = out ++ lost.
Proof.
  intros conn buf deadline r out rest H. unfold writeFull in H. apply writeLoop_out in H. destruct H as [A B].
  assert (D : r = WDone \/ r <> WDone) by (destruct r; auto; right; discriminate).
  destruct D as [D|D].
  - rewrite (A D). split; [tauto|]. exists []. rewrite app_nil_r; auto.
  - destruct (B D) as (z & E & N). split; [|eauto]. split; [tauto|].
    intros ->. rewrite <- (app_nil_r buf) in E at 1. apply app_inv_head in E. congruence.
Qed.
Print Assumptions C02_writeFull_all_or_prefix.

(** A connection that takes something each time and reports no error gets the
    whole buffer, in any chunking. *)
Lemma writeLoop_progress : forall conn buf st hd dh,
  Forall (fun p => snd p = None) conn ->
  (List.length buf <= list_sum (map fst conn))%nat ->
  exists rest, writeLoop conn buf st hd dh = (WDone, buf, rest).
Proof.
  induction conn as [|[n e] cn IH]; intros buf st hd dh F L; destruct buf as [|x b].
  - simpl. eauto.
  - simpl in L. lia.
  - simpl; eauto.
  - inversion F; subst. simpl in H1. subst e. cbn [writeLoop]. remember (x :: b) as B. clear HeqB x b.
    destruct (skipn n B) as [|y ys] eqn:S.
    + exists cn. rewrite <- (firstn_skipn n B) at 2. rewrite S, app_nil_r. auto.
    + rewrite <- S. assert (L2 : (List.length (skipn n B) <= list_sum (map fst cn))%nat).
      { rewrite skipn_length. simpl in L. lia. }
      destruct (IH (skipn n B) (st || Nat.ltb 0 n)%bool hd dh H2 L2) as (r & ->).
      exists r. rewrite firstn_skipn. auto.
Qed.

Theorem C02_writeFull_completes : forall conn buf deadline,
  Forall (fun p => snd p = None) conn ->
  (List.length buf <= list_sum (map fst conn))%nat ->
  exists rest, writeFull conn buf deadline = (WDone, buf, rest).
Proof. intros. apply writeLoop_progress; auto. Qed.
Print Assumptions C02_writeFull_completes.

(** After a write deadline that interrupts a started message, one more attempt
    is made, and only one: if it completes the buffer the call succeeds, if it
    fails again the error is returned. *)
Theorem C02_writeFull_one_retry : forall buf n1 n2 e2 more,
  (0 < n1 < List.length buf)%nat ->
  writeFull ((n1, Some ErrTimeout) :: (n2, Some e2) :: more) buf true =
    if (List.length buf - n1 <=? n2)%nat then (WDone, buf, more)
    else (WErr e2, firstn (n1 + n2) buf, more).
Proof.
  intros buf n1 n2 e2 more H. unfold writeFull.
  destruct buf as [|x b]; [simpl in H; lia|]. cbn [writeLoop]. remember (x :: b) as B. clear HeqB x b.
  destruct (skipn n1 B) as [|y ys] eqn:S1.
  { apply (f_equal (@List.length _)) in S1. rewrite skipn_length in S1. simpl in S1. lia. }
  destruct (Nat.ltb_spec 0 n1); [|lia]. cbn [orb andb negb]. cbn [writeLoop]. rewrite <- S1.
  destruct (skipn n2 (skipn n1 B)) as [|y2 ys2] eqn:S2.
  - destruct (Nat.leb_spec (List.length B - n1) n2) as [L|L].
    + f_equal. f_equal. rewrite <- (firstn_skipn n1 B) at 3. f_equal.
      rewrite <- (firstn_skipn n2 (skipn n1 B)) at 2. rewrite S2, app_nil_r. auto.
    + apply (f_equal (@List.length _)) in S2. rewrite !skipn_length in S2. simpl in S2. lia.
  - destruct (Nat.leb_spec (List.length B - n1) n2) as [L|L].
    + apply (f_equal (@List.length _)) in S2. rewrite !skipn_length in S2. simpl in S2. lia.
    + f_equal. f_equal. rewrite <- (firstn_skipn n1 B) at 3. rewrite firstn_app.
      rewrite firstn_length_le by lia. rewrite firstn_firstn. f_equal.
      * f_equal. lia.
      * f_equal. lia.
Qed.
Print Assumptions C02_writeFull_one_retry.

Example C02_nonvacuous :
  writeFull [(1%nat, None); (0%nat, None); (2%nat, Some ErrTimeout); (5%nat, None)] [1;2;3;4;5] true
    = (WDone, [1;2;3;4;5], []) /\
  writeFull [(1%nat, Some ErrIO)] [1;2;3] true = (WErr ErrIO, [1], []).
Proof. split; reflexivity. Qed.

(** ** C03 *)

(** The tag byte codec is a bijection between the tags 0..7 and their names. *)
Theorem C03_magic_codec_bijection :
  (forall t, t < 8 -> exists s, decodeMagic7 t = Some s /\ encodeMagic7 s = Some t) /\
  (forall t, 8 <= t -> decodeMagic7 t = None) /\
  (forall s t, encodeMagic7 s = Some t -> t < 8 /\
     (decodeMagic7 t = Some s \/ (s = ""%string /\ t = 0))) /\
  (forall s1 s2 t, decodeMagic7 t = Some s1 -> encodeMagic7 s2 = Some t -> s2 = s1 \/ s2 = ""%string).
Proof.
  assert (A : forall t s, decodeMagic7 t = Some s -> encodeMagic7 s = Some t).
  { intros t s. unfold decodeMagic7.
    repeat match goal with |- context [?a =? ?b] => destruct (N.eqb_spec a b) as [->|?] end;
    intros E; inversion E; subst; reflexivity. }
  assert (B : forall s t, encodeMagic7 s = Some t -> t < 8 /\ (decodeMagic7 t = Some s \/ (s = ""%string /\ t = 0))).
  { intros s t. unfold encodeMagic7.
    repeat match goal with |- context [String.eqb s ?b] => destruct (String.eqb_spec s b) as [->|?] end; simpl;
    intros E; inversion E; subst; unfold magic7b_none, magic7b_s2, magic7b_lz4, magic7b_zstd01, magic7b_zstd03,
      magic7b_zstd07, magic7b_zstd11, magic7b_no_system_compression; split; try lia; auto. }
  split; [|split; [|split]]; auto.
  - intros t H. assert (D : exists s, decodeMagic7 t = Some s).
    { unfold decodeMagic7. repeat match goal with |- context [?a =? ?b] => destruct (N.eqb_spec a b); eauto end.
      unfold magic7b_none, magic7b_s2, magic7b_lz4, magic7b_zstd01, magic7b_zstd03,
      magic7b_zstd07, magic7b_zstd11, magic7b_no_system_compression in *. lia. }
    destruct D as (s & D). eauto.
  - intros t H. unfold decodeMagic7.
    repeat match goal with |- context [?a =? ?b] => destruct (N.eqb_spec a b) as [->|?]; [vm_compute in H; congruence|] end.
    auto.
  - intros s1 s2 t H1 H2. apply B in H2. destruct H2 as (_ & [H2|[H2 _]]); auto. left. congruence.
Qed.
Print Assumptions C03_magic_codec_bijection.

(** A stream whose first seven bytes are not the magic is refused with
    ErrMagicWrong, whatever follows; no message is delivered and the connection's
    compression state is unchanged. *)
Theorem C03_wrong_magic_refused : forall c w last conn,
  quiet conn -> (8 <= List.length (streamOf conn))%nat ->
  firstn 7 (streamOf conn) <> magic7bytes ->
  exists conn', readMessage c w last conn = Ok (RErr ErrMagicWrong, w, last, conn').
Proof.
  intros c w last conn Q L N. unfold readMessage.
  destruct (readFull_quiet_ok conn 8 [] Q L) as (c1 & -> & _). cbn [app].
  rewrite firstn_firstn. replace (Nat.min 7 8) with 7%nat by reflexivity.
  destruct (bytes_eqb (firstn 7 (streamOf conn)) magic7bytes) eqn:E.
  - apply bytes_eqb_true in E. contradiction.
  - simpl. eauto.
Qed.
Print Assumptions C03_wrong_magic_refused.

(** Conversely every delivered message came from a stream that starts with the
    magic, and only on such streams can a crash happen at all. *)
Theorem C03_delivery_needs_magic : forall c w last conn,
  match readMessage c w last conn with
  | Ok (RErr _, _, _, _) => True
  | Ok (RMsg _, _, _, _) | Panic => firstn 7 (streamOf conn) = magic7bytes
  end.
Proof.
  intros. unfold readMessage.
  destruct (readFull conn 8 []) as [[mc [e|]] c1] eqn:E1; auto.
  destruct (bytes_eqb (firstn 7 mc) magic7bytes) eqn:B; simpl; auto.
  apply bytes_eqb_true in B. apply readFull_ok in E1. destruct E1 as (L & -> & _).
  cbn [app] in B. rewrite firstn_firstn in B. replace (Nat.min 7 8) with 7%nat in B by reflexivity.
  repeat match goal with
  | |- context [match ?x with _ => _ end] => destruct x; auto
  end.
Qed.
Print Assumptions C03_delivery_needs_magic.

Example C03_nonvacuous :
  exists conn, quiet conn /\ streamOf conn = [0xb3; 0x5d; 0x18; 0x39; 0xac; 0x8e; 0x1c; 0; 0] /\
   readMessage exCodec (mkWs true true 0 true) 0 conn = Ok (RErr ErrMagicWrong, mkWs true true 0 true, 0, [([0], None)]).
Proof. exists [([0xb3; 0x5d; 0x18], None); ([0x39; 0xac; 0x8e; 0x1c; 0; 0], None)]. repeat constructor. Qed.

(** ** C04 *)

Lemma lastClientTag_app : forall h d e, lastClientTag d (h ++ [e]) =
  match e with ERecv t _ => if t =? 7 then lastClientTag d h else t | ESend _ => lastClientTag d h end.
Proof.
  induction h as [|a h IH]; intros d e; simpl.
  - destruct e; auto.
  - destruct a; apply IH.
Qed.

Lemma handleCompress_usable : forall c t b x, handleCompress c t b = Ok x -> t = 0 \/ t = 1 \/ t = 7.
Proof.
  unfold handleCompress. intros c t b x.
  destruct (N.eqb_spec t 0); auto. destruct (N.eqb_spec t 1); auto.
  destruct (N.eqb_spec t magic7b_no_system_compression); auto. discriminate.
Qed.

Lemma compress_decompress : forall c t b x, codec_ok c -> handleCompress c t b = Ok x -> handleDecompress c t x = Ok b.
Proof.
  intros c t b x [_ D]. unfold handleCompress, handleDecompress.
  destruct (t =? 0); [congruence|]. destruct (t =? 1); [intros E; inversion E; rewrite D; auto|].
  destruct (t =? _); congruence.
Qed.

Lemma srvRun_tags : forall c cfg we wd dflt sevs evs past,
  codec_ok c -> w_decomp wd = true -> w_compress we = true -> w_server we = true -> w_default we = dflt ->
  (dflt = 0 \/ dflt = 1 \/ dflt = 7) ->
  Forall2 (evMatch c) sevs evs ->
  Forall (fun a => match a with ESend m => lenN (m_job m) <= maxMessage - 1024 | _ => True end) sevs ->
  (lastClientTag dflt past = 0 \/ lastClientTag dflt past = 1 \/ lastClientTag dflt past = 7) ->
  exists fs, srvRun c cfg we wd (lastClientTag dflt past) evs = Ok fs /\
    map fst fs = expectedTags past dflt sevs /\
    (forall i m, nth_error (flat_map (fun a => match a with ESend m => [m] | _ => [] end) sevs) i = Some m ->
       exists t b, nth_error fs i = Some (t, b) /\ handleDecompress c t b = Ok (marshal c m)).
Proof.
  intros c cfg we wd dflt sevs evs past CO HD HC HS HDf HU F. revert past.
  induction F as [|a x l l' M F IH]; intros past L U.
  - exists []. split; auto. split; auto. intros i m H. destruct i; discriminate.
  - inversion L; subst. destruct a as [t m|m], x as [conn|m'|]; simpl in M; try contradiction.
    + destruct M as (Q & body & HCo & LB & S).
      pose proof (handleCompress_usable _ _ _ _ HCo) as T.
      destruct (readMessage_frame c wd (lastClientTag (w_default we) past) conn t body m []) as (w' & conn' & E & _ & _ & _ & _ & W); auto.
      { eapply compress_decompress; eauto. }
      { rewrite app_nil_r; auto. }
      cbn [srvRun]. rewrite E. unfold bind. rewrite (W HD). rewrite HD.
      replace (if t =? 7 then lastClientTag (w_default we) past else t)
        with (lastClientTag (w_default we) (past ++ [ERecv t m])) by (rewrite lastClientTag_app; auto).
      destruct (IH (past ++ [ERecv t m])) as (fs & R & Tg & Bd); auto.
      { rewrite lastClientTag_app. destruct (t =? 7); auto. }
      exists fs. split; [exact R|]. split; auto.
    + subst m'. cbn [srvRun].
      assert (FO : exists b, frameOf c we (lastClientTag (w_default we) past) m =
         Ok (if m_nosys m then 7 else lastClientTag (w_default we) past, b) /\
         handleDecompress c (if m_nosys m then 7 else lastClientTag (w_default we) past) b = Ok (marshal c m)).
      { unfold frameOf, AsGreenpack. destruct (N.ltb_spec (maxMessage - 1024) (lenN (m_job m))); [lia|].
        unfold bind. rewrite HC. destruct (m_nosys m); [eexists; split; reflexivity|].
        rewrite HS.
        destruct (N.leb_spec magic7b_out_of_bounds (lastClientTag (w_default we) past)) as [X|X].
        - unfold magic7b_out_of_bounds in X. lia.
        - destruct U as [-> | [-> | ->]]; (eexists; split; [reflexivity|]); simpl; auto.
          unfold handleDecompress. simpl. destruct CO as [_ D]. rewrite D. auto. }
      destruct FO as (b & -> & DB). unfold bind.
      assert (LT : lastClientTag (w_default we) (past ++ [ESend m]) = lastClientTag (w_default we) past)
        by (rewrite lastClientTag_app; auto).
      destruct (IH (past ++ [ESend m])) as (fs & R & Tg & Bd); auto.
      { rewrite LT; auto. }
      rewrite LT in R. rewrite R.
      eexists. split; [reflexivity|]. split.
      * simpl. f_equal. auto.
      * intros [|i] m0 H; simpl in H.
        -- inversion H; subst. do 2 eexists. split; [reflexivity|]. auto.
        -- apply Bd in H. auto.
Qed.

(** Over any history of client frames and server sends, each server message is
    tagged with the compression of the latest client frame that was not a
    per-message opt-out (the server's configured default before any), an opt-out
    is tagged 7 and changes nothing afterwards, and every body decompresses to
    the message sent. *)
Theorem C04_server_follows_client : forall c cfg we wd last dflt, codec_ok c ->
  CompressionOff cfg = false -> encodeMagic7 (CompressAlgo cfg) = Some dflt ->
  (dflt = 0 \/ dflt = 1 \/ dflt = 7) ->
  newPlainEndpoint cfg true = Ok (we, wd, last) ->
  forall sevs evs, Forall2 (evMatch c) sevs evs ->
  Forall (fun a => match a with ESend m => lenN (m_job m) <= maxMessage - 1024 | _ => True end) sevs ->
  exists fs, srvRun c cfg we wd last evs = Ok fs /\
    map fst fs = expectedTags [] dflt sevs /\
    (forall i m, nth_error (flat_map (fun a => match a with ESend m => [m] | _ => [] end) sevs) i = Some m ->
       exists t b, nth_error fs i = Some (t, b) /\ handleDecompress c t b = Ok (marshal c m)).
Proof.
  intros c cfg we wd last dflt CO Off En U New sevs evs F L.
  unfold newPlainEndpoint, newWorkspace in New. rewrite Off in New. unfold setMagicCheckWord in New.
  rewrite En in New. simpl in New. inversion New; subst.
  apply srvRun_tags with (past := []); auto.
Qed.
Print Assumptions C04_server_follows_client.

(** A client always uses its own configured compression, whatever it has read. *)
Theorem C04_client_uses_own : forall c cfg we wd last0 dflt last m tag body,
  newPlainEndpoint cfg false = Ok (we, wd, last0) ->
  encodeMagic7 (CompressAlgo cfg) = Some dflt ->
  frameOf c we last m = Ok (tag, body) ->
  tag = if CompressionOff cfg then 0 else if m_nosys m then 7 else dflt.
Proof.
  intros c cfg we wd last0 dflt last m tag body New En F.
  unfold newPlainEndpoint, newWorkspace, setMagicCheckWord in New. rewrite En in New.
  unfold frameOf in F. destruct (AsGreenpack c m); simpl in F; [|discriminate].
  destruct (CompressionOff cfg); simpl in New; inversion New; subst; simpl in F.
  - inversion F; auto.
  - destruct (m_nosys m); [inversion F; auto|].
    destruct (handleCompress c _ a) in F; simpl in F; inversion F; auto.
Qed.
Print Assumptions C04_client_uses_own.

Definition exMsg (b : bool) (p : bytes) : msg := mkMsg b p [9].
Definition exServer : config := mkCfg false "".
Definition exEvents : list sev :=
  [ESend (exMsg false [1]); ERecv 1 (exMsg false [2]); ESend (exMsg false [3]);
   ERecv 7 (exMsg true [4]); ESend (exMsg true [5]); ESend (exMsg false [6])].
Definition exConn (t : N) (m : msg) : rconn :=
  match handleCompress exCodec t (marshal exCodec m) with
  | Ok b => let f := frame t b in [(firstn 5 f, None); (skipn 5 f, None)]
  | Panic => [] end.

Example C04_nonvacuous :
  Forall2 (evMatch exCodec) exEvents
    (map (fun a => match a with ERecv t m => SRecv (exConn t m) | ESend m => SSend m end) exEvents) /\
  expectedTags [] 0 exEvents = [0; 1; 7; 1].
Proof.
  split; [|reflexivity].
  repeat constructor; simpl; repeat (split || constructor);
    eexists; (split; [reflexivity|]); (split; [vm_compute; discriminate|reflexivity]).
Qed.

(** The two server goroutines of a connection each run newBlabber, which resets
    the shared "last client compression" to the server's default.  When the send
    loop's newBlabber runs after the first request was read, the reply does not
    follow the client. *)
Theorem C04_late_send_loop_refuted :
  exists cfg we wd last conn m fs,
    newPlainEndpoint cfg true = Ok (we, wd, last) /\
    streamOf conn = frame 1 (s2c exCodec (marshal exCodec m)) /\ m_nosys m = false /\
    srvRun exCodec cfg we wd last [SRecv conn; SNewBlabber; SSend m] = Ok fs /\
    map fst fs = [0].
Proof.
  exists exServer. do 3 eexists. exists (exConn 1 (exMsg false [2])), (exMsg false [2]). eexists.
  repeat split; reflexivity.
Qed.
Print Assumptions C04_late_send_loop_refuted.

(** ** C05 *)

(** Exactly which configurations can send an ordinary message. *)
Theorem C05_usable_compressions : forall c cfg isServer we wd last m,
  newPlainEndpoint cfg isServer = Ok (we, wd, last) ->
  CompressionOff cfg = false -> m_nosys m = false -> lenN (m_job m) <= maxMessage - 1024 ->
  ((exists f, frameOf c we last m = Ok f) <->
   In (CompressAlgo cfg) [""; "compression-none"; "s2"; "no-system-compression"]%string).
Proof.
  intros c cfg isServer we wd last m New Off NS L.
  unfold newPlainEndpoint, newWorkspace, setMagicCheckWord in New. rewrite Off in New. simpl in New.
  destruct (encodeMagic7 (CompressAlgo cfg)) as [t|] eqn:E; simpl in New; inversion New; subst.
  unfold frameOf, AsGreenpack. destruct (N.ltb_spec (maxMessage - 1024) (lenN (m_job m))); [lia|].
  unfold bind at 1. rewrite NS. cbn [w_compress w_server w_default].
  assert (Tlt : (magic7b_out_of_bounds <=? last) = false).
  { destruct C03_magic_codec_bijection as (_ & _ & B & _). apply B in E. destruct E as [E _].
    apply N.leb_gt. exact E. }
  rewrite Tlt. replace (if isServer then last else last) with last by (destruct isServer; auto).
  split.
  - intros (f & F). destruct (handleCompress c last (marshal c m)) eqn:HC; [|discriminate].
    apply handleCompress_usable in HC. rename HC into HU.
    destruct C03_magic_codec_bijection as (_ & _ & B & _). apply B in E. destruct E as [_ [E|[E _]]].
    + destruct HU as [->|[->| ->]]; inversion E; simpl; auto.
    + rewrite E; simpl; auto.
  - intros I. simpl in I.
    destruct I as [I|[I|[I|[I|[]]]]]; rewrite <- I in E; inversion E; subst; eexists; reflexivity.
Qed.
Print Assumptions C05_usable_compressions.

(** Five of the six documented compression names are accepted by the
    configuration and crash the first ordinary send. *)
Theorem C05_documented_compression_refuted : forall algo c isServer m,
  In algo documentedAlgos -> algo <> "s2"%string -> m_nosys m = false ->
  exists we wd last, newPlainEndpoint (mkCfg false algo) isServer = Ok (we, wd, last) /\
    forall conn dl, sendMessage c we last m conn dl = Panic.
Proof.
  intros algo c isServer m I N NS.
  simpl in I. destruct I as [I|[I|[I|[I|[I|[I|[]]]]]]]; subst; try congruence;
  do 3 eexists; (split; [reflexivity|]); intros conn dl; unfold sendMessage, frameOf, AsGreenpack;
  destruct (_ <? _); auto; simpl; rewrite NS; destruct isServer; reflexivity.
Qed.
Print Assumptions C05_documented_compression_refuted.

Example C05_nonvacuous : exists we wd last f,
  newPlainEndpoint (mkCfg false "s2") true = Ok (we, wd, last) /\
  frameOf exCodec we last (exMsg false [1;2;3]) = Ok f.
Proof. do 4 eexists. split; reflexivity. Qed.

(** ** C37: frames of concurrent senders *)

(** Any number of goroutines sending through one workspace: in every schedule
    the wire is the concatenation of whole frames in some order without
    repetition, followed by a prefix of at most one more frame; when all are
    finished every frame is there exactly once. *)
Theorem C37_shared_workspace_frames_whole : forall mu ws sched,
  let s := wrun (winit (map (fun p => (mu, p)) ws)) sched in
  exists order partial,
    NoDup order /\ (forall i, In i order -> (i < List.length ws)%nat) /\
    ws_wire s = List.concat (map (fun i => List.concat (nth i ws [])) order) ++ partial /\
    (partial <> [] -> exists i rest, ~ In i order /\ List.concat (nth i ws []) = partial ++ rest) /\
    ((forall t, In t (ws_senders s) -> sn_phase t = Finished) ->
       partial = [] /\ Permutation order (seq 0 (List.length ws))).
Proof.
  intros mu ws sched s.
  destruct (winv_run mu ws sched _ (winv_init mu ws)) as (Len & order & cur & ND & FO & TI & C).
  fold s in Len, FO, TI, C.
  assert (B : forall i, In i order -> (i < List.length ws)%nat).
  { intros i I. apply FO in I. destruct I as (t & H & _). rewrite <- Len. apply nth_error_Some. congruence. }
  assert (PM : (forall t, In t (ws_senders s) -> sn_phase t = Finished) -> Permutation order (seq 0 (List.length ws))).
  { intros Fin. apply NoDup_Permutation; auto using seq_NoDup. intros i. rewrite in_seq. split.
    - intros I. apply B in I. lia.
    - intros I. apply FO. destruct (nth_error (ws_senders s) i) as [t|] eqn:E.
      + exists t. split; auto. apply Fin. eapply nth_error_In; eauto.
      + apply nth_error_None in E. lia. }
  destruct cur as [[i k]|].
  - destruct C as (_ & (t & Et & Ph & Pt & Lk) & W).
    exists order, (List.concat (firstn k (nth i ws []))). split; auto. split; auto. split; auto. split.
    + intros _. exists i, (List.concat (skipn k (nth i ws []))). split.
      * intros I. apply FO in I. destruct I as (t' & A & P). congruence.
      * rewrite <- concat_app, firstn_skipn. auto.
    + intros Fin. assert (sn_phase t = Finished) by (apply Fin; eapply nth_error_In; eauto). congruence.
  - destruct C as (_ & W). exists order, []. rewrite app_nil_r. repeat split; auto. intros X; elim X; auto.
Qed.
Print Assumptions C37_shared_workspace_frames_whole.

Example C37_nonvacuous :
  let s := wrun (winit [(0%nat, sendParts 0 [1]); (0%nat, sendParts 0 [2])])
                [1;0;1;1;0;1;1;0;0;0;0;0]%nat in
  ws_wire s = frame 0 [2] ++ frame 0 [1] /\ (forall t, In t (ws_senders s) -> sn_phase t = Finished).
Proof. split; [reflexivity|]. intros t [<-|[<-|[]]]; reflexivity. Qed.

(** The server writes one connection through two workspaces, each with its own
    mutex.  There is a schedule in which a reply and a send-loop message get
    interleaved and the client, reading the resulting bytes, gets neither. *)
Theorem C37_two_workspaces_interleave_refuted :
  exists m1 m2 tag1 b1 tag2 b2 we wd last sched,
    newPlainEndpoint (mkCfg true "") true = Ok (we, wd, last) /\
    frameOf exCodec we last m1 = Ok (tag1, b1) /\ frameOf exCodec we last m2 = Ok (tag2, b2) /\
    let s := wrun (winit [(0%nat, sendParts tag1 b1); (1%nat, sendParts tag2 b2)]) sched in
    (forall t, In t (ws_senders s) -> sn_phase t = Finished) /\
    ws_wire s <> frame tag1 b1 ++ frame tag2 b2 /\ ws_wire s <> frame tag2 b2 ++ frame tag1 b1 /\
    exists wd' last' conn' e,
      readLoop exCodec 2 (mkWs false false 0 false) 0 [(ws_wire s, None)] = Ok ([], wd', last', conn', Some e).
Proof.
  exists (exMsg false [1]), (exMsg false [2]). do 7 eexists.
  exists [0;0;1;1;0;0;0;1;1;1]%nat.
  split; [reflexivity|]. split; [reflexivity|]. split; [reflexivity|]. cbv zeta. split; [|split; [|split]].
  - intros t [<-|[<-|[]]]; reflexivity.
  - vm_compute. discriminate.
  - vm_compute. discriminate.
  - vm_compute. do 4 eexists. reflexivity.
Qed.
Print Assumptions C37_two_workspaces_interleave_refuted.
