(** Property theorems for encrypted connections: C06-C10. *)
From Coq Require Import List NArith Arith Lia Bool String.
From Verif Require Import Base Wire_Model Wire_Spec Wire_Proofs Wire_Proofs2 Wire_Props
  Crypt_Model Crypt_Spec Crypt_Proofs.
Import ListNotations.
Open Scope N_scope.

(** A toy cipher for the examples: constant tag, PACT adds one to each byte. *)
Definition exTag : bytes := repeat 170 16.
Definition exAead : aead := mkAead
  (fun n ad p => p ++ exTag)
  (fun n ad ct => let k := (List.length ct - 16)%nat in
     if bytes_eqb (skipn k ct) exTag then Some (firstn k ct) else None)
  (fun ad n t => map (fun b => b + 1) t)
  (fun ad n t => map (fun b => b - 1) t).

Lemma exAead_ok : aead_ok exAead.
Proof.
  split; [|split]; simpl.
  - intros _ _ p. rewrite app_length. simpl (List.length exTag). rewrite Nat.add_sub.
    rewrite skipn_app, skipn_all, Nat.sub_diag. simpl (skipn 0 exTag).
    assert (B : bytes_eqb ([] ++ exTag) exTag = true) by reflexivity. rewrite B.
    rewrite firstn_app, firstn_all, Nat.sub_diag, firstn_O, app_nil_r. auto.
  - intros. rewrite app_length. reflexivity.
  - intros ad n t L. split; [|rewrite map_length; auto]. rewrite map_map.
    rewrite <- (map_id t) at 2. apply map_ext. intros; lia.
Qed.

Definition exRand : bytes := [250; 255; 3; 4; 5; 6; 7; 8; 9; 10; 11; 12; 13; 14; 15; 200].
Lemma exRand_ok : rand16 exRand.
Proof. split; [reflexivity|]. repeat constructor. Qed.

Definition exSize (m : msg) : N := lenN (marshal exCodec m) + 20.

Lemma newBlabber_inv : forall cfg s r e d last, newBlabber cfg s r = Ok (e, d, last) ->
  e_nonce e = initNonce r s /\ encodeMagic7 (CompressAlgo cfg) = Some (e_magic7 e) /\
  e_compress e = negb (CompressionOff cfg) /\ e_server e = s /\ d_decomp d = negb (CompressionOff cfg) /\
  e_buf e = (if CompressionOff cfg then None else Some zeroBuf) /\
  last = e_magic7 e.
Proof.
  intros cfg s r e d last H. unfold newBlabber, newWorkspace, setMagicCheckWord in H.
  destruct (CompressionOff cfg) eqn:Off; cbn [negb bind] in H.
  - destruct (encodeMagic7 (CompressAlgo cfg)); cbn [bind encodeMagic7 String.eqb orb magic7b_none N.eqb negb] in H; [|discriminate].
    inversion H; subst. cbn. repeat split; auto.
  - destruct (encodeMagic7 (CompressAlgo cfg)); cbn [bind] in H; [|discriminate].
    inversion H; subst. cbn. repeat split; auto.
Qed.

(** ** C06 *)

Lemma decLoop_frames : forall c a sent bodies nonces tag d last conn tail,
  codec_ok c -> aead_ok a -> (sent <> [] -> tag = 0 \/ tag = 1 \/ tag = 7) -> (tag = 1 -> d_decomp d = true) ->
  Forall2 (fun m b => handleDecompress c tag b = Ok (marshal c m)) sent bodies ->
  List.length nonces = List.length bodies -> Forall (fun n => List.length n = 16%nat) nonces ->
  Forall (fun b => lenN b + 40 <= maxMessage) bodies ->
  quiet conn ->
  streamOf conn = List.concat (map (fun p => encFrameBytes a (fst p) tag (snd p)) (combine nonces bodies)) ++ tail ->
  exists d' last' conn',
    decLoop c a (List.length sent) d last conn = Ok (sent, d', last', conn', None) /\
    streamOf conn' = tail /\ quiet conn'.
Proof.
  intros c a sent bodies nonces tag d last conn tail CO AO T HD1 F. revert nonces d last conn T HD1.
  induction F as [|m b sent bodies HD F IH]; intros nonces d last conn T HD1 LN F16 LB Q S.
  - destruct nonces; simpl in *; [|discriminate]. eauto 8.
  - destruct nonces as [|n ns]; simpl in LN; [discriminate|].
    inversion LB; subst. inversion F16; subst. simpl in S. rewrite <- app_assoc in S.
    assert (T' : tag = 0 \/ tag = 1 \/ tag = 7) by (apply T; discriminate).
    destruct (decRead_frame c a d last conn n tag b m _ CO AO H3 T' HD1 HD H1 Q S) as (mc & l1 & c1 & E & S1 & Q1 & _).
    cbn [List.length decLoop]. rewrite E. unfold bind at 1.
    destruct (IH ns (mkDec mc (d_decomp d) (d_server d)) l1 c1) as (d2 & l2 & c2 & E2 & S2 & Q2); auto.
    rewrite E2. simpl. eauto 8.
Qed.

Lemma concat_map_frames_len : forall a (ns : list nat) bodies nonce tag, aead_ok a ->
  List.length nonce = 16%nat ->
  Forall (fun f => lenN f <= maxMessage + 8)
    (map (fun p => encFrameBytes a (incrN (fst p) nonce) tag (snd p)) (combine ns bodies)) ->
  List.length ns = List.length bodies ->
  Forall (fun b => lenN b + 40 <= maxMessage) bodies.
Proof.
  intros a ns. induction ns as [|k ns IH]; intros [|b bodies] nonce tag AO L F LE; cbn [combine map fst snd List.length] in *; try discriminate; constructor.
  - inversion F; subst. unfold lenN in *. rewrite encFrame_len in H1; auto; [lia|]. rewrite incrN_len; auto.
  - inversion F; subst. eapply IH; eauto.
Qed.

(** Any sequence of sends on one side of an encrypted connection, in which no
    call crashed, followed by reads on the other side in any chunking: the
    reader gets exactly the messages whose send produced a frame, in order, and
    stops at the end of the last frame.  The frame must be within the reader's
    limit (see C08), the serializer's size estimate within the buffer (see
    C06_oversized_estimate_refuted), and a CompressionOff reader needs a sender
    not configured for s2 (documented in cli.go). *)
Theorem C06_encrypted_round_trip : forall c a msgsize, codec_ok c -> aead_ok a ->
  forall scfg sIsServer srand e d0 l0, rand16 srand -> newBlabber scfg sIsServer srand = Ok (e, d0, l0) ->
  forall rcfg rIsServer rrand e0 d last, newBlabber rcfg rIsServer rrand = Ok (e0, d, last) ->
  (CompressionOff rcfg = true -> CompressAlgo scfg <> "s2"%string) ->
  forall calls rs e', encRun c a msgsize e calls = Ok (rs, e') ->
  Forall (fun k => msgsize (snd k) <= maxMessage + 48) calls ->
  Forall (fun f => lenN f <= maxMessage + 8) (framesOf rs) ->
  forall conn tail, quiet conn -> streamOf conn = List.concat (framesOf rs) ++ tail ->
  exists d' last' conn',
    decLoop c a (List.length (sentOf calls rs)) d last conn = Ok (sentOf calls rs, d', last', conn', None) /\
    streamOf conn' = tail /\ quiet conn'.
Proof.
  intros c a ms CO AO scfg sS sr e d0 l0 R NB rcfg rS rr e0 d last NB2 NS calls rs e' ER SZ FL conn tail Q S.
  apply newBlabber_inv in NB. destruct NB as (EN & EM & _).
  apply newBlabber_inv in NB2. destruct NB2 as (_ & _ & _ & _ & DD & _).
  destruct (encRun_frames c a ms calls e rs e' CO ER SZ) as (ns & bodies & F & NSq & LB & F2 & T).
  assert (L16 : List.length (e_nonce e) = 16%nat) by (rewrite EN; apply initNonce_len; auto).
  assert (LNB : List.length ns = List.length bodies) by (rewrite NSq, seq_length; auto).
  pose proof FL as FL'. rewrite F in FL'.
  apply concat_map_frames_len in FL'; auto.
  rewrite F in S.
  apply (decLoop_frames c a _ bodies (map (fun k => incrN k (e_nonce e)) ns) (e_magic7 e)); auto.
  - intros SN. apply T. intros ->. inversion F2; congruence.
  - intros E1. rewrite DD. destruct (CompressionOff rcfg) eqn:Off; auto. exfalso. apply (NS eq_refl).
    destruct C03_magic_codec_bijection as (_ & _ & B & _). apply B in EM. rewrite E1 in EM.
    destruct EM as (_ & [X|[_ X]]); [inversion X; auto|discriminate].
  - rewrite map_length. auto.
  - apply Forall_forall. intros x I. apply in_map_iff in I. destruct I as (k & <- & _). rewrite incrN_len; auto.
  - rewrite S. f_equal. f_equal. clear. revert bodies.
    induction ns; destruct bodies; simpl; auto. f_equal; auto.
Qed.
Print Assumptions C06_encrypted_round_trip.

Example C06_nonvacuous :
  exists e d0 l0 e0 d last rs e',
    newBlabber (mkCfg true "") false exRand = Ok (e, d0, l0) /\
    newBlabber (mkCfg true "") true exRand = Ok (e0, d, last) /\
    encRun exCodec exAead exSize e [(0, mkMsg false [1;2;3] []); (0, mkMsg false [4] [5])] = Ok (rs, e') /\
    map (@List.length N) (framesOf rs) = [53%nat; 52%nat] /\
    sentOf [(0, mkMsg false [1;2;3] []); (0, mkMsg false [4] [5])] rs = [mkMsg false [1;2;3] []; mkMsg false [4] [5]] /\
    decLoop exCodec exAead 2 d last [(List.concat (framesOf rs), None)] =
      Ok ([mkMsg false [1;2;3] []; mkMsg false [4] [5]], mkDec [179;93;24;57;172;142;29;0] false true, 0, [], None).
Proof.
  do 8 eexists. split; [reflexivity|]. split; [reflexivity|]. split; [vm_compute; reflexivity|].
  repeat split; vm_compute; reflexivity.
Qed.

(** When the serializer's size estimate exceeds the space left in the encoder's
    buffer, the serialized message lives in another allocation and is never
    copied back: with CompressionOff the frame sent is the same for every
    message of that length, although sendMessage reports success. *)
Theorem C06_oversized_estimate_refuted : forall c a msgsize rnd s e d last l m,
  newBlabber (mkCfg true "") s rnd = Ok (e, d, last) ->
  m_nosys m = false -> lenN (m_job m) <= maxMessage - 1024 ->
  lenN (marshal c m) <= maxMessage -> maxMessage + 48 < msgsize m ->
  exists e', encSend c a msgsize e l m =
    Ok (EFrame (encFrameBytes a (e_nonce e) 0 (repeat 0 (List.length (marshal c m)))), e').
Proof.
  intros c a ms rnd s e d last l m NB NSy LJ LM SZ.
  apply newBlabber_inv in NB. destruct NB as (EN & EM & EC & _ & _ & EB & _).
  cbn [CompressionOff CompressAlgo negb] in *. inversion EM as [EM'].
  unfold encSend, AsGreenpack, encSelect, encFinish. rewrite EB, EC, NSy.
  destruct (N.ltb_spec (maxMessage - 1024) (lenN (m_job m))); [lia|]. cbn [bind].
  destruct (N.ltb_spec maxMessage (lenN (marshal c m))); [lia|]. cbn [bind].
  rewrite <- EM'. cbn [N.eqb negb magic7b_none].
  change (N.of_nat noncesize) with 16. change (N.of_nat overhead) with 16.
  destruct (N.ltb_spec (maxMessage + 80) (16 + 8 + lenN (marshal c m) + 16 + 8)); [lia|].
  destruct (N.leb_spec (ms m) bufRoom) as [X|_]; [rewrite bufRoom_val in X; lia|].
  assert (R : firstn (List.length (marshal c m)) zeroBuf = repeat 0 (List.length (marshal c m))).
  { assert (LL : (List.length (marshal c m) <= N.to_nat bufRoom)%nat).
    { rewrite bufRoom_val. unfold lenN in *. lia. }
    Local Transparent zeroBuf. unfold zeroBuf. Local Opaque zeroBuf. revert LL.
    generalize (N.to_nat bufRoom) as q. generalize (List.length (marshal c m)) as k.
    induction k; destruct q; cbn [repeat firstn]; intros; auto; try lia. f_equal. apply IHk. lia. }
  rewrite R.
  assert (LR : lenN (repeat 0 (List.length (marshal c m))) = lenN (marshal c m)).
  { unfold lenN. rewrite repeat_length. auto. }
  eexists. unfold encFrameBytes. rewrite LR. reflexivity.
Qed.
Print Assumptions C06_oversized_estimate_refuted.

(** The hypotheses above are met by messages whose estimate is only 700 bytes
    too high (Msgsize counts every header field name, omitted or not). *)
Example C06_oversized_estimate_nonvacuous :
  exists m, m_nosys m = false /\ lenN (m_job m) <= maxMessage - 1024 /\
    lenN (marshal exCodec m) <= maxMessage /\
    maxMessage + 48 < lenN (marshal exCodec m) + 700.
Proof.
  exists (mkMsg false [] (repeat 1 (N.to_nat (maxMessage - 500)))).
  assert (L : lenN (marshal exCodec (mkMsg false [] (repeat 1 (N.to_nat (maxMessage - 500))))) = 2 + (maxMessage - 500)).
  { unfold lenN. cbn [marshal exCodec m_job m_rest m_nosys app List.length].
    rewrite repeat_length. rewrite !Nnat.Nat2N.inj_succ, Nnat.N2Nat.id. lia. }
  rewrite L. unfold maxMessage. cbn [m_nosys m_job]. repeat split; try lia. vm_compute. discriminate.
Qed.

(** ** C07 *)

Lemma encSend_nonce : forall c a ms e last m r e', encSend c a ms e last m = Ok (r, e') ->
  match r with
  | EErr _ => e_nonce e' = e_nonce e
  | EFrame f => e_nonce e' = incrementNonce (e_nonce e) /\
                (List.length (e_nonce e) = 16%nat -> nonceOf f = e_nonce e)
  end.
Proof.
  intros c a ms e last m r e' H. destruct r as [x|f]; [apply encSend_err in H; tauto|].
  unfold encSend, AsGreenpack in H.
  destruct (maxMessage - 1024 <? lenN (m_job m)); [discriminate|]. cbn [bind] in H.
  destruct (maxMessage <? lenN (marshal c m)); [discriminate|].
  destruct (encSelect c e last m _ _) as [[[tag by1] buf4]|] in H; [|discriminate]. cbn [bind] in H.
  unfold encFinish in H.
  destruct (negb _) in H; [discriminate|]. destruct (_ <? _) in H; [discriminate|].
  match type of H with Ok (EFrame (putU64 ?n ++ ?r), ?b) = _ =>
    remember (putU64 n) as pp eqn:Ep; remember b as e'' eqn:Eb end.
  injection H as <- <-. subst e''. cbn [e_nonce]. split; auto. subst pp.
  intros L. unfold nonceOf.
  match goal with |- context [putU64 ?n ++ ?r] => replace (skipn 8 (putU64 n ++ r)) with r by reflexivity end.
  rewrite firstn_app, <- L, Nat.sub_diag, firstn_O, app_nil_r, firstn_all. auto.
Qed.

Lemma encRun_nonces : forall c a ms calls e rs e', encRun c a ms e calls = Ok (rs, e') ->
  List.length (e_nonce e) = 16%nat ->
  map nonceOf (framesOf rs) = map (fun k => incrN k (e_nonce e)) (seq 0 (List.length (framesOf rs))).
Proof.
  intros c a ms calls. induction calls as [|[last m] cs IH]; intros e rs e' H L.
  - inversion H; subst. reflexivity.
  - cbn [encRun] in H. destruct (encSend c a ms e last m) as [[r e1]|] eqn:ES; [|discriminate].
    unfold bind at 1 in H. destruct (encRun c a ms e1 cs) as [[rs1 e2]|] eqn:ER; [|discriminate].
    cbn [bind] in H. inversion H; subst. apply encSend_nonce in ES.
    destruct r as [x|f].
    + rewrite <- ES in *. apply IH in ER; auto.
    + destruct ES as [EN NO]. apply IH in ER.
      2:{ rewrite EN, incrementNonce_len; auto. }
      change (framesOf (EFrame f :: rs1)) with (f :: framesOf rs1). cbn [List.length seq map].
      rewrite NO by auto. f_equal. rewrite ER, <- seq_shift, map_map. apply map_ext.
      intros k. rewrite EN, incrN_comm. auto.
Qed.

Lemma NoDup_map_inj_in : forall A B (f : A -> B) l, NoDup l ->
  (forall x y, In x l -> In y l -> f x = f y -> x = y) -> NoDup (map f l).
Proof.
  induction 1 as [|x l N ND IH]; intros I; simpl; constructor.
  - intros X. apply in_map_iff in X. destruct X as (y & E & Iy). apply I in E; simpl; auto. subst; auto.
  - apply IH. intros; apply I; simpl; auto.
Qed.

Lemma incrN_inj : forall l i j, bytesOk l -> List.length l = 16%nat ->
  N.of_nat i < 2 ^ 128 -> N.of_nat j < 2 ^ 128 -> incrN i l = incrN j l -> i = j.
Proof.
  intros l i j O L Hi Hj E. apply (f_equal leval) in E. rewrite !incrN_val in E by auto.
  assert (LL : 256 ^ lenN l = 2 ^ 128) by (unfold lenN; rewrite L; reflexivity). rewrite LL in E.
  pose proof (leval_bound l O) as B. rewrite LL in B.
  assert (Q : forall x, x < 2 ^ 128 -> (leval l + x) mod 2 ^ 128 = if leval l + x <? 2 ^ 128 then leval l + x else leval l + x - 2 ^ 128).
  { intros x Hx. destruct (N.ltb_spec (leval l + x) (2 ^ 128)); [apply N.mod_small; auto|].
    symmetry. apply N.mod_unique with (q := 1); lia. }
  rewrite !Q in E by auto. 
  destruct (N.ltb_spec (leval l + N.of_nat i) (2 ^ 128)), (N.ltb_spec (leval l + N.of_nat j) (2 ^ 128)); lia.
Qed.

(** For any random material on the two sides, as long as each side sent at most
    2^120 frames, no two frames of the connection, in either direction, carry
    the same nonce: neither failed sends nor anything the peer does makes one
    repeat. *)
Theorem C07_nonces_unique : forall c a msgsize ccfg scfg crand srand ce cd cl se sd sl,
  rand16 crand -> rand16 srand ->
  newBlabber ccfg false crand = Ok (ce, cd, cl) -> newBlabber scfg true srand = Ok (se, sd, sl) ->
  forall ccalls crs ce' scalls srs se',
  encRun c a msgsize ce ccalls = Ok (crs, ce') -> encRun c a msgsize se scalls = Ok (srs, se') ->
  lenN (List.concat (map (fun _ => [0]) (framesOf crs))) <= 2 ^ 120 ->
  lenN (List.concat (map (fun _ => [0]) (framesOf srs))) <= 2 ^ 120 ->
  NoDup (map nonceOf (framesOf crs ++ framesOf srs)).
Proof.
  intros c a ms ccfg scfg cr sr ce cd cl se sd sl Rc Rs NBc NBs ccalls crs ce' scalls srs se' ERc ERs Lc Ls.
  apply newBlabber_inv in NBc. destruct NBc as (ENc & _). apply newBlabber_inv in NBs. destruct NBs as (ENs & _).
  assert (LL : forall fs : list bytes, lenN (List.concat (map (fun _ => [0]) fs)) = N.of_nat (List.length fs)).
  { intros fs. unfold lenN. f_equal. induction fs; simpl; auto. }
  rewrite LL in Lc, Ls. clear LL.
  pose proof (initNonce_len cr false Rc) as L1. pose proof (initNonce_len sr true Rs) as L2.
  apply encRun_nonces in ERc; [|rewrite ENc; auto]. apply encRun_nonces in ERs; [|rewrite ENs; auto].
  rewrite ENc in ERc. rewrite ENs in ERs. rewrite map_app, ERc, ERs. clear ERc ERs.
  pose proof (initNonce_ok cr false Rc) as O1. pose proof (initNonce_ok sr true Rs) as O2.
  set (nc := initNonce cr false) in *. set (ns := initNonce sr true) in *.
  assert (ND : forall l k, bytesOk l -> List.length l = 16%nat -> N.of_nat k <= 2 ^ 120 ->
     NoDup (map (fun i => incrN i l) (seq 0 k))).
  { intros l k O L K. apply NoDup_map_inj_in; [apply seq_NoDup|].
    intros x y Ix Iy. apply in_seq in Ix. apply in_seq in Iy. apply incrN_inj; auto; lia. }
  assert (NDapp : forall (A B : list bytes), NoDup A -> NoDup B -> (forall x, In x A -> In x B -> False) -> NoDup (A ++ B)).
  { intros A B NA. induction NA as [|x A N NA IH]; intros NB D; simpl; auto.
    constructor.
    - rewrite in_app_iff. intros [X|X]; auto. eapply D; eauto. simpl; auto.
    - apply IH; auto. intros y I1 I2. eapply D; eauto. simpl; auto. }
  apply NDapp; auto. intros x I1 I2.
  apply in_map_iff in I1. destruct I1 as (i & <- & Ii). apply in_map_iff in I2. destruct I2 as (j & E & Ij).
  apply in_seq in Ii. apply in_seq in Ij.
  apply (f_equal leval) in E. rewrite !incrN_val in E by auto.
  destruct (initNonce_val cr false Rc) as (lo1 & t1 & V1 & B1 & T1).
  destruct (initNonce_val sr true Rs) as (lo2 & t2 & V2 & B2 & T2).
  fold nc in V1. fold ns in V2. rewrite V1, V2 in E.
  assert (P1 : 256 ^ lenN nc = 2 ^ 128) by (unfold lenN; rewrite L1; reflexivity).
  assert (P2 : 256 ^ lenN ns = 2 ^ 128) by (unfold lenN; rewrite L2; reflexivity).
  rewrite P1, P2 in E. rewrite !N.mod_small in E by lia. lia.
Qed.
Print Assumptions C07_nonces_unique.

Example C07_nonvacuous :
  exists ce cd cl se sd sl crs ce' srs se',
  newBlabber (mkCfg true "") false exRand = Ok (ce, cd, cl) /\ newBlabber (mkCfg true "") true exRand = Ok (se, sd, sl) /\
  encRun exCodec exAead exSize ce (repeat (0, mkMsg false [1] []) 8) = Ok (crs, ce') /\
  encRun exCodec exAead exSize se (repeat (0, mkMsg false [1] []) 8) = Ok (srs, se') /\
  map (fun n => firstn 2 n ++ skipn 15 n) (map nonceOf (framesOf crs)) =
    [[250;255;8];[251;255;8];[252;255;8];[253;255;8];[254;255;8];[255;255;8];[0;0;8];[1;0;8]] /\
  List.length (framesOf srs) = 8%nat.
Proof.
  do 10 eexists. split; [reflexivity|]. split; [reflexivity|]. split; [vm_compute; reflexivity|].
  split; [vm_compute; reflexivity|]. split; vm_compute; reflexivity.
Qed.

(** The server, however, has two encoders on one connection and key: the read
    loop's (replies) and the send loop's.  Nothing but chance keeps their nonces
    apart: different random starts can lead to the same nonce in two frames. *)
Theorem C07_two_server_encoders_refuted :
  exists r1 r2 e1 d1 l1 e2 d2 l2 rs1 rs2 e1' e2',
    rand16 r1 /\ rand16 r2 /\ r1 <> r2 /\
    newBlabber (mkCfg true "") true r1 = Ok (e1, d1, l1) /\ newBlabber (mkCfg true "") true r2 = Ok (e2, d2, l2) /\
    encRun exCodec exAead exSize e1 [(0, mkMsg false [1] []); (0, mkMsg false [2] [])] = Ok (rs1, e1') /\
    encRun exCodec exAead exSize e2 [(0, mkMsg false [3] [])] = Ok (rs2, e2') /\
    ~ NoDup (map nonceOf (framesOf rs1 ++ framesOf rs2)).
Proof.
  exists exRand, [251; 255; 3; 4; 5; 6; 7; 8; 9; 10; 11; 12; 13; 14; 15; 17]. do 10 eexists.
  split; [apply exRand_ok|]. split; [split; [reflexivity|repeat constructor]|]. split; [discriminate|].
  split; [reflexivity|]. split; [reflexivity|]. split; [vm_compute; reflexivity|]. split; [vm_compute; reflexivity|].
  vm_compute. intros H. inversion H; subst. inversion H3; subst. apply H4. left. reflexivity.
Qed.
Print Assumptions C07_two_server_encoders_refuted.

(** ** C08 *)

(** The receiver refuses with ErrTooLong exactly the frames whose body is more
    than maxMessage-40 bytes. *)
Theorem C08_receiver_limit_exact : forall c a d last conn nonce tag body z,
  List.length nonce = 16%nat -> lenN body < 2 ^ 63 ->
  quiet conn -> streamOf conn = encFrameBytes a nonce tag body ++ z ->
  maxMessage < lenN body + 40 ->
  exists conn', decRead c a d last conn = Ok (RErr ErrTooLong, d, last, conn').
Proof.
  intros c a d last conn nonce tag body z L16 LB Q S LT. unfold decRead.
  unfold encFrameBytes in S.
  set (sz := N.of_nat noncesize + 8 + lenN body + N.of_nat overhead) in *.
  assert (Esz : sz = lenN body + 40) by (unfold sz, noncesize, overhead; lia).
  destruct (readFull_quiet_ok conn 8 [] Q) as (c1 & E1 & S1 & Q1).
  { rewrite S, !app_length, putU64_len. lia. }
  rewrite E1, S. cbn [app].
  match goal with |- context [firstn 8 ((putU64 sz ++ ?r) ++ z)] =>
    replace (firstn 8 ((putU64 sz ++ r) ++ z)) with (putU64 sz) by reflexivity end.
  rewrite put_get by lia. destruct (N.ltb_spec maxMessage sz); [eauto|lia].
Qed.
Print Assumptions C08_receiver_limit_exact.

(** The sender's check looks at the serialized size only: every message of
    maxMessage-39 .. maxMessage bytes is accepted and then refused by the
    receiver. *)
Theorem C08_sender_accepts_unreceivable_refuted : forall c a msgsize rnd s e d0 last0 l m,
  codec_ok c -> rand16 rnd ->
  newBlabber (mkCfg true "") s rnd = Ok (e, d0, last0) ->
  m_nosys m = false -> lenN (m_job m) <= maxMessage - 1024 -> msgsize m <= maxMessage + 48 ->
  maxMessage - 40 < lenN (marshal c m) -> lenN (marshal c m) <= maxMessage ->
  exists f e', encSend c a msgsize e l m = Ok (EFrame f, e') /\
    forall d last conn z, quiet conn -> streamOf conn = f ++ z ->
      exists conn', decRead c a d last conn = Ok (RErr ErrTooLong, d, last, conn').
Proof.
  intros c a ms rnd s e d0 last0 l m CO R NB NSy LJ SZ LO HI.
  assert (ES : exists f e', encSend c a ms e l m = Ok (EFrame f, e')).
  { apply newBlabber_inv in NB. destruct NB as (EN & EM & EC & _ & _ & EB & _).
    cbn [CompressionOff CompressAlgo negb] in *. inversion EM as [EM'].
    unfold encSend, AsGreenpack, encSelect, encFinish. rewrite EC, NSy, EB.
    destruct (N.ltb_spec (maxMessage - 1024) (lenN (m_job m))); [lia|]. cbn [bind].
    destruct (N.ltb_spec maxMessage (lenN (marshal c m))); [lia|]. cbn [bind].
    rewrite <- EM'. cbn [N.eqb negb magic7b_none].
    change (N.of_nat noncesize) with 16. change (N.of_nat overhead) with 16.
    destruct (N.ltb_spec (maxMessage + 80) (16 + 8 + lenN (marshal c m) + 16 + 8)); [lia|].
    do 2 eexists. reflexivity. }
  destruct ES as (f & e' & ES). exists f, e'. split; auto.
  apply newBlabber_inv in NB. destruct NB as (EN & EM & EC & _ & _ & EB & _).
  pose proof ES as ES'. apply encSend_frame in ES'; [|auto|rewrite bufRoom_val; auto]. destruct ES' as (body & -> & _ & HD & _ & _ & LB).
  cbn [CompressionOff CompressAlgo negb] in *. inversion EM as [EM']. rewrite <- EM' in *.
  cbn in HD. inversion HD; subst body.
  intros d last conn z Q S. apply (C08_receiver_limit_exact c a d last conn (e_nonce e) 0 (marshal c m) z); auto; try lia.
  - rewrite EN. apply initNonce_len; auto.
  - unfold maxMessage in HI. lia.
Qed.
Print Assumptions C08_sender_accepts_unreceivable_refuted.

Example C08_nonvacuous : exists m, m_nosys m = false /\ lenN (m_job m) <= maxMessage - 1024 /\
  maxMessage - 40 < lenN (marshal exCodec m) /\ lenN (marshal exCodec m) <= maxMessage.
Proof.
  exists (mkMsg false [] (repeat 1 (N.to_nat (maxMessage - 2)))).
  assert (L : lenN (marshal exCodec (mkMsg false [] (repeat 1 (N.to_nat (maxMessage - 2))))) = 2 + (maxMessage - 2)).
  { unfold lenN. cbn [marshal exCodec m_job m_rest m_nosys app List.length].
    rewrite repeat_length. rewrite !Nnat.Nat2N.inj_succ, Nnat.N2Nat.id. lia. }
  rewrite L. unfold maxMessage. cbn [m_nosys m_job]. repeat split; try lia. vm_compute. discriminate.
Qed.

(** ** C09 *)

(** When exactly a send of an acceptable message crashes: whenever the tag it
    would use differs from the configured one (or is not implemented). *)
Theorem C09_send_crash_exact : forall c a msgsize cfg s rnd e d last0 last m,
  newBlabber cfg s rnd = Ok (e, d, last0) -> lenN (m_job m) <= maxMessage - 1024 ->
  lenN (marshal c m) <= maxMessage -> lenN (s2c c (marshal c m)) <= maxMessage + 32 ->
  let configured := e_magic7 e in
  let wanted := if m_nosys m then 7
                else if CompressionOff cfg then 0
                else if s && (last <? 8) then last else configured in
  (encSend c a msgsize e last m = Panic <->
   wanted <> configured \/ ~ In wanted [0; 1; 7]).
Proof.
  intros c a ms cfg s rnd e d last0 last m NB LJ LM LS configured wanted.
  apply newBlabber_inv in NB. destruct NB as (EN & EM & EC & ESr & _ & EB & _).
  unfold encSend, AsGreenpack.
  destruct (N.ltb_spec (maxMessage - 1024) (lenN (m_job m))); [lia|]. cbn [bind].
  destruct (N.ltb_spec maxMessage (lenN (marshal c m))); [lia|].
  set (buf3 := if ms m <=? bufRoom then _ else _). clearbody buf3.
  assert (FIN : forall tag by1 buf4, lenN by1 <= maxMessage + 32 ->
    (encFinish a e tag by1 buf4 = Panic <-> tag <> e_magic7 e)).
  { intros tag by1 buf4 LB. unfold encFinish. destruct (N.eqb_spec (e_magic7 e) tag) as [->|NE]; cbn [negb].
    - change (N.of_nat noncesize) with 16. change (N.of_nat overhead) with 16. cbv zeta.
      destruct (N.ltb_spec (maxMessage + 80) (16 + 8 + lenN by1 + 16 + 8)); [lia|]. split; [discriminate|congruence].
    - split; auto. }
  assert (G : forall t by1, handleCompress c t (marshal c m) = Ok by1 -> lenN by1 <= maxMessage + 32).
  { intros t by1. unfold handleCompress. destruct (_ =? 0); [intros X; inversion X; subst; lia|].
    destruct (_ =? 1); [intros X; inversion X; subst; auto|].
    destruct (_ =? _); intros X; inversion X; subst; lia. }
  assert (G2 : forall t, handleCompress c t (marshal c m) = Panic <-> ~ In t [0;1;7]).
  { intros t. unfold handleCompress, magic7b_no_system_compression. simpl.
    destruct (N.eqb_spec t 0); [split; [discriminate|intros X; elim X; auto]|].
    destruct (N.eqb_spec t 1); [split; [discriminate|intros X; elim X; auto]|].
    destruct (N.eqb_spec t 7); [split; [discriminate|intros X; elim X; auto]|].
    split; auto. intros _. lia. }
  unfold wanted, configured, encSelect. rewrite EC, ESr.
  destruct (m_nosys m).
  - cbn [bind]. rewrite FIN by lia. split; [tauto|]. intros [X|X]; auto. elim X; simpl; auto.
  - destruct (CompressionOff cfg); cbn [negb].
    + cbn [bind]. rewrite FIN by lia. split; [tauto|]. intros [X|X]; auto. elim X; simpl; auto.
    + assert (W : (if s then if magic7b_out_of_bounds <=? last then e_magic7 e else last else e_magic7 e) =
                  (if s && (last <? 8) then last else e_magic7 e)).
      { destruct s; auto. unfold magic7b_out_of_bounds. simpl.
        destruct (N.leb_spec 8 last), (N.ltb_spec last 8); auto; lia. }
      cbv zeta. rewrite W. set (t := if s && (last <? 8) then last else e_magic7 e).
      destruct (handleCompress c t (marshal c m)) as [by1|] eqn:HC.
      * cbn [bind]. rewrite FIN by eauto. split; [tauto|]. intros [X|X]; auto.
        apply G2 in X. congruence.
      * split; auto. intros _. right. apply G2. auto.
Qed.
Print Assumptions C09_send_crash_exact.

(** Opting one message out of compression crashes every ordinary encrypted
    endpoint, client or server. *)
Theorem C09_opt_out_crashes_refuted : forall c a msgsize algo off s rnd e d last0 last m,
  newBlabber (mkCfg off algo) s rnd = Ok (e, d, last0) -> algo <> "no-system-compression"%string ->
  m_nosys m = true -> lenN (m_job m) <= maxMessage - 1024 -> lenN (marshal c m) <= maxMessage ->
  encSend c a msgsize e last m = Panic.
Proof.
  intros c a ms algo off s rnd e d last0 last m NB NA NSy LJ LM.
  apply newBlabber_inv in NB. destruct NB as (EN & EM & _). cbn [CompressAlgo] in EM.
  unfold encSend, AsGreenpack, encSelect, encFinish. rewrite NSy.
  destruct (N.ltb_spec (maxMessage - 1024) (lenN (m_job m))); [lia|]. cbn [bind].
  destruct (N.ltb_spec maxMessage (lenN (marshal c m))); [lia|]. cbn [bind].
  destruct (N.eqb_spec (e_magic7 e) magic7b_no_system_compression) as [E|]; auto.
  exfalso. apply NA. destruct C03_magic_codec_bijection as (_ & _ & B & _). apply B in EM. rewrite E in EM.
  destruct EM as (_ & [X|[_ X]]); [inversion X; auto|discriminate].
Qed.
Print Assumptions C09_opt_out_crashes_refuted.

(** A client that uses s2 crashes a default-configured encrypted server,
    whatever the cipher, the codec and the messages: the server follows the
    client's tag and then finds it is not its own. *)
Theorem C09_client_compression_crashes_server_refuted :
  forall c a msgsize crand srand ce cd cl se sd sl m f ce',
    codec_ok c -> aead_ok a -> rand16 crand ->
    newBlabber (mkCfg false "s2") false crand = Ok (ce, cd, cl) ->
    newBlabber (mkCfg false "") true srand = Ok (se, sd, sl) ->
    msgsize m <= maxMessage + 48 ->
    encSend c a msgsize ce cl m = Ok (EFrame f, ce') -> lenN f <= maxMessage + 8 ->
    exists sd' last' conn',
      decRead c a sd sl [(f, None)] = Ok (RMsg m, sd', last', conn') /\
      forall reply, m_nosys reply = false -> lenN (m_job reply) <= maxMessage - 1024 ->
        lenN (marshal c reply) <= maxMessage -> lenN (s2c c (marshal c reply)) <= maxMessage + 32 ->
        encSend c a msgsize se last' reply = Panic.
Proof.
  intros c a ms crand srand ce cd cl se sd sl m f ce' CO AO R NC NSv SZ ES LF.
  pose proof (newBlabber_inv _ _ _ _ _ _ NC) as (CN & CM & _).
  pose proof (newBlabber_inv _ _ _ _ _ _ NSv) as (_ & SM & _ & _ & SD & _).
  cbn in CM, SM, SD. injection CM as CM. injection SM as SM.
  apply encSend_frame in ES; [|auto|rewrite bufRoom_val; auto]. destruct ES as (body & -> & T & HD & _ & _ & LB).
  assert (LN : List.length (e_nonce ce) = 16%nat) by (rewrite CN; apply initNonce_len; auto).
  pose proof (encFrame_len a (e_nonce ce) (e_magic7 ce) body AO LN) as FL.
  set (f := encFrameBytes a (e_nonce ce) (e_magic7 ce) body) in *.
  destruct (decRead_frame c a sd sl [(f, None)] (e_nonce ce) (e_magic7 ce) body m []) as (mc & l' & c' & E & _ & _ & L7); auto.
  - unfold lenN in *. lia.
  - constructor; [reflexivity|constructor].
  - exists (mkDec mc (d_decomp sd) (d_server sd)), l', c'. split; auto.
    intros reply NR LJ LM LS. rewrite L7 by (rewrite <- CM; discriminate).
    apply (proj2 (C09_send_crash_exact c a ms _ true srand se sd sl (e_magic7 ce) reply NSv LJ LM LS)).
    left. rewrite NR. cbn [CompressionOff]. rewrite <- CM, <- SM. cbn. discriminate.
Qed.
Print Assumptions C09_client_compression_crashes_server_refuted.

Example C09_nonvacuous : forall crand srand, exists ce cd cl se sd sl f ce',
    newBlabber (mkCfg false "s2") false crand = Ok (ce, cd, cl) /\
    newBlabber (mkCfg false "") true srand = Ok (se, sd, sl) /\
    encSend exCodec exAead exSize ce cl (mkMsg false [1] []) = Ok (EFrame f, ce').
Proof.
  intros crand srand.
  destruct (newBlabber (mkCfg false "s2") false crand) as [[[ce cd] cl]|] eqn:NC; [|discriminate].
  destruct (newBlabber (mkCfg false "") true srand) as [[[se sd] sl]|] eqn:NSv; [|discriminate].
  set (m := mkMsg false [1] []).
  destruct (encSend exCodec exAead exSize ce cl m) as [[[x|f] ce']|] eqn:ES.
  - apply encSend_err in ES. destruct ES as (_ & _ & _ & X). vm_compute in X. discriminate.
  - do 8 eexists. eauto.
  - exfalso. apply (proj1 (C09_send_crash_exact exCodec exAead exSize _ false crand ce cd cl cl m NC
        ltac:(vm_compute; discriminate) ltac:(vm_compute; discriminate) ltac:(vm_compute; discriminate))) in ES.
    apply newBlabber_inv in NC. destruct NC as (_ & CM & _). cbn in CM. injection CM as CM.
    cbn [m_nosys m CompressionOff andb] in ES. rewrite <- CM in ES. destruct ES as [X|X]; [congruence|].
    apply X. simpl. auto.
Qed.

(** ** C10 *)

(** A crash of the encrypted reader needs either a declared length below 16, or
    bytes that pass authentication under the session key. *)
Theorem C10_reader_crash_needs_partial : forall c a d last conn,
  decRead c a d last conn = Panic ->
  exists lb rest, streamOf conn = lb ++ rest /\ List.length lb = 8%nat /\ getU64 lb <= maxMessage /\
    (getU64 lb < 16 \/
     exists nonce ct pt, aopen a nonce lb ct = Some pt).
Proof.
  intros c a d last conn H. unfold decRead in H.
  destruct (readFull conn 8 []) as [[lb [x|]] c1] eqn:E1; [discriminate|].
  apply readFull_ok in E1. destruct E1 as (L1 & -> & S1). cbn [app] in H.
  exists (firstn 8 (streamOf conn)), (skipn 8 (streamOf conn)).
  split; [symmetry; apply firstn_skipn|]. split; [rewrite firstn_length; lia|].
  destruct (N.ltb_spec maxMessage (getU64 (firstn 8 (streamOf conn)))) as [X|X]; [discriminate|]. split; auto.
  destruct (readFull c1 _ []) as [[en [x|]] c2] eqn:E2; [discriminate|].
  apply readFull_ok in E2. destruct E2 as (L2 & -> & S2). cbn [app] in H.
  destruct (Nat.ltb_spec (List.length (firstn (N.to_nat (getU64 (firstn 8 (streamOf conn)))) (streamOf c1))) overhead) as [Y|Y].
  - left. rewrite firstn_length in Y. unfold overhead in Y. lia.
  - right.
    match type of H with match aopen a ?n ?l ?ct with _ => _ end = _ => destruct (aopen a n l ct) as [pt|] eqn:O end;
      [|discriminate]. eauto.
Qed.
Print Assumptions C10_reader_crash_needs_partial.

(** In particular a peer without the key whose lengths are at least 16 gets an
    error, never a crash and never a message. *)
Theorem C10_unauthentic_rejected : forall c a d last conn,
  (forall nonce ad ct, aopen a nonce ad ct = None) ->
  (forall lb rest, streamOf conn = lb ++ rest -> List.length lb = 8%nat -> 16 <= getU64 lb) ->
  exists e d' last' conn', decRead c a d last conn = Ok (RErr e, d', last', conn').
Proof.
  intros c a d last conn NO LL.
  destruct (decRead c a d last conn) as [[[[r d'] last'] conn']|] eqn:H.
  - destruct r as [m|e]; [|eauto].
    exfalso. unfold decRead in H.
    destruct (readFull conn 8 []) as [[lb [x|]] c1] eqn:E1; [discriminate|].
    destruct (maxMessage <? getU64 lb); [discriminate|].
    destruct (readFull c1 _ []) as [[en [x|]] c2] eqn:E2; [discriminate|].
    destruct (Nat.ltb _ _); [discriminate|]. rewrite NO in H. discriminate.
  - apply C10_reader_crash_needs_partial in H. destruct H as (lb & rest & S & L & _ & [X|(n & ct & pt & X)]).
    + specialize (LL lb rest S L). lia.
    + rewrite NO in X. discriminate.
Qed.
Print Assumptions C10_unauthentic_rejected.

(** Anybody who can reach the port can crash an encrypted reader with 8 bytes:
    whatever the cipher and the state, a length field below 16 followed by that
    many bytes. *)
Theorem C10_short_length_crashes_refuted : forall c a d last n body,
  n < 16 -> lenN body = n ->
  decRead c a d last [(putU64 n ++ body, None)] = Panic.
Proof.
  intros c a d last n body N16 LB. unfold decRead.
  assert (Q : quiet [(putU64 n ++ body, @None err)]) by (repeat constructor).
  destruct (readFull_quiet_ok _ 8 [] Q) as (c1 & E1 & S1 & Q1).
  { unfold streamOf. simpl. lia. }
  rewrite E1. cbn [app].
  assert (SO : streamOf [(putU64 n ++ body, @None err)] = putU64 n ++ body) by (unfold streamOf; simpl; rewrite app_nil_r; auto).
  rewrite SO in *. replace (firstn 8 (putU64 n ++ body)) with (putU64 n) by reflexivity.
  replace (skipn 8 (putU64 n ++ body)) with body in S1 by reflexivity.
  rewrite put_get by lia. destruct (N.ltb_spec maxMessage n) as [X|_]; [unfold maxMessage in X; lia|].
  destruct (readFull_quiet_ok c1 (N.to_nat n) [] Q1) as (c2 & E2 & S2 & Q2).
  { rewrite S1. unfold lenN in LB. lia. }
  rewrite E2, S1. cbn [app]. destruct (Nat.ltb_spec (List.length (firstn (N.to_nat n) body)) overhead) as [_|X]; auto.
  rewrite firstn_length in X. unfold overhead, lenN in *. lia.
Qed.
Print Assumptions C10_short_length_crashes_refuted.

(** Plaintext readers are crashed by any peer too: a frame tagged lz4/zstd, or
    tagged s2 with bytes s2 rejects (/repo/compress.go panics). *)
Theorem C10_plaintext_tag_crashes_refuted : forall c cfg s we wd last tag,
  newPlainEndpoint cfg s = Ok (we, wd, last) -> 2 <= tag -> tag <> 7 ->
  readMessage c wd last [(frame tag [], None)] = Panic.
Proof.
  intros c cfg s we wd last tag NE T N7.
  unfold readMessage.
  assert (Q : quiet [(frame tag [], @None err)]) by (repeat constructor).
  cbn -[handleDecompress getU64 N.eqb decodeMagic7].
  replace (getU64 (putU64 (lenN []))) with 0 by reflexivity.
  assert (HP : forall b, handleDecompress c tag b = Panic).
  { intros b. unfold handleDecompress, magic7b_no_system_compression.
    destruct (N.eqb_spec tag 0); [lia|]. destruct (N.eqb_spec tag 1); [lia|]. destruct (N.eqb_spec tag 7); [lia|]. auto. }
  change (getU64 _) with 0. change (maxMessage <? 0) with false. cbn -[handleDecompress N.eqb decodeMagic7].
  rewrite HP. destruct (w_decomp wd); cbn [negb bind]; auto.
  destruct (N.eqb_spec tag magic7b_none) as [->|]; [vm_compute in T; congruence|]. cbn [negb].
  destruct (decodeMagic7 tag); auto.
Qed.
Print Assumptions C10_plaintext_tag_crashes_refuted.

Example C10_nonvacuous :
  let a := mkAead (seal exAead) (fun _ _ _ => None) (tagEnc exAead) (tagDec exAead) in
  let conn := [(putU64 20 ++ repeat 9 20, @None err)] in
  (forall nonce ad ct, aopen a nonce ad ct = None) /\
  (forall lb rest, streamOf conn = lb ++ rest -> List.length lb = 8%nat -> 16 <= getU64 lb) /\
  exists d d' conn', decRead exCodec a d 0 conn = Ok (RErr ErrAuth, d', 0, conn').
Proof.
  split; [reflexivity|]. split.
  - intros lb rest E L. assert (lb = putU64 20) as ->; [|vm_compute; discriminate].
    apply (f_equal (firstn 8)) in E. rewrite firstn_app, L, Nat.sub_diag, firstn_O, app_nil_r in E.
    rewrite <- L, firstn_all in E. rewrite L in E. rewrite <- E. reflexivity.
  - exists (mkDec (repeat 0 8) true true). do 2 eexists. vm_compute. reflexivity.
Qed.
