From Coq Require Import List NArith Arith Lia Bool String.
From Verif Require Import Base Wire_Model Wire_Spec Wire_Proofs Wire_Proofs2 Crypt_Model Crypt_Spec.
Import ListNotations.
Open Scope N_scope.

(** ** Nonces as numbers *)
Fixpoint leval (l : bytes) : N := match l with [] => 0 | b :: r => b + 256 * leval r end.

Definition bytesOk (l : bytes) : Prop := Forall (fun b => b < 256) l.

Lemma leval_bound : forall l, bytesOk l -> leval l < 256 ^ lenN l.
Proof.
  induction l as [|b r IH]; intros H; unfold lenN; simpl List.length.
  - simpl. lia.
  - inversion H; subst. rewrite Nnat.Nat2N.inj_succ, N.pow_succ_r'. specialize (IH H3). unfold lenN in IH. cbn [leval]. lia.
Qed.

Lemma incrementNonce_len : forall l, List.length (incrementNonce l) = List.length l.
Proof. induction l; simpl; auto. destruct (negb _); simpl; auto. Qed.

Lemma incrementNonce_ok : forall l, bytesOk l -> bytesOk (incrementNonce l).
Proof.
  induction 1; simpl; [constructor|].
  assert ((x + 1) mod 256 < 256) by (apply N.mod_lt; lia).
  destruct (negb _); constructor; auto.
Qed.

Lemma incrementNonce_val : forall l, bytesOk l ->
  leval (incrementNonce l) = (leval l + 1) mod (256 ^ lenN l).
Proof.
  induction l as [|b r IH]; intros H.
  - reflexivity.
  - inversion H; subst. pose proof (leval_bound r H3) as B.
    assert (E : lenN (b :: r) = N.succ (lenN r)) by (unfold lenN; simpl; lia).
    rewrite E, N.pow_succ_r'. cbn [incrementNonce].
    assert (P : 0 < 256 ^ lenN r) by (apply N.neq_0_lt_0, N.pow_nonzero; lia).
    destruct (N.eq_dec b 255) as [->|N].
    + change ((255 + 1) mod 256) with 0. cbn [negb N.eqb leval]. rewrite (IH H3).
      replace (255 + 256 * leval r + 1) with (256 * (leval r + 1)) by lia.
      rewrite N.mul_mod_distr_l by lia. lia.
    + rewrite N.mod_small by lia. destruct (N.eqb_spec (b + 1) 0); [lia|]. cbn [negb leval].
      rewrite N.mod_small; [lia|]. nia.
Qed.

Lemma leval_inj : forall l1 l2, bytesOk l1 -> bytesOk l2 -> List.length l1 = List.length l2 ->
  leval l1 = leval l2 -> l1 = l2.
Proof.
  induction l1 as [|a l1 IH]; intros [|b l2] H1 H2 L E; cbn [leval List.length] in *; try discriminate; auto.
  inversion H1; inversion H2; subst. assert (a = b /\ leval l1 = leval l2) as [-> E2] by lia.
  f_equal. apply IH; auto.
Qed.

Fixpoint incrN (k : nat) (l : bytes) : bytes := match k with O => l | S j => incrementNonce (incrN j l) end.

Lemma incrN_len : forall k l, List.length (incrN k l) = List.length l.
Proof. induction k; simpl; intros; auto. rewrite incrementNonce_len; auto. Qed.
Lemma incrN_ok : forall k l, bytesOk l -> bytesOk (incrN k l).
Proof. induction k; simpl; intros; auto using incrementNonce_ok. Qed.
Lemma incrN_comm : forall k l, incrN k (incrementNonce l) = incrN (S k) l.
Proof. induction k; simpl; intros; auto. rewrite IHk. reflexivity. Qed.
Lemma incrN_val : forall k l, bytesOk l -> leval (incrN k l) = (leval l + N.of_nat k) mod 256 ^ lenN l.
Proof.
  induction k as [|k IH]; intros l H.
  - simpl. rewrite N.add_0_r, N.mod_small; auto. apply leval_bound; auto.
  - cbn [incrN]. rewrite incrementNonce_val by (apply incrN_ok; auto).
    unfold lenN at 1. rewrite incrN_len. fold (lenN l). rewrite IH by auto.
    rewrite N.add_mod_idemp_l by (apply N.pow_nonzero; lia). f_equal. lia.
Qed.

Lemma initNonce_len : forall r s, rand16 r -> List.length (initNonce r s) = 16%nat.
Proof. intros r s [L _]. unfold initNonce. rewrite app_length, firstn_length, L. reflexivity. Qed.

Lemma land_lt64 : forall x, N.land x 63 < 64.
Proof. intros. change 63 with (N.ones 6). rewrite N.land_ones. apply N.mod_lt. discriminate. Qed.

Lemma lor127 : forall x, x < 64 -> N.lor x 127 = 127.
Proof.
  intros x H. apply N.bits_inj. intros k.
  rewrite N.lor_spec. destruct (N.ltb_spec k 7) as [K|K].
  - change 127 with (N.ones 7). rewrite (N.ones_spec_low 7 k) by lia. apply orb_true_r.
  - change 127 with (N.ones 7). rewrite (N.ones_spec_high 7 k) by lia. rewrite orb_false_r.
    destruct (N.eq_dec x 0) as [->|Nz]; [apply N.bits_0|].
    apply N.bits_above_log2. apply N.log2_lt_pow2; [lia|]. 
    eapply N.lt_le_trans; [exact H|]. change 64 with (2 ^ 6). apply N.pow_le_mono_r; lia.
Qed.

Lemma initNonce_last : forall r s, initNonce r s =
  firstn 15 r ++ [if s then 127 else N.land (nth 15 r 0) 63].
Proof. intros. unfold initNonce. destruct s; auto. rewrite lor127 by apply land_lt64. auto. Qed.

Lemma initNonce_ok : forall r s, rand16 r -> bytesOk (initNonce r s).
Proof.
  intros r s [L F]. rewrite initNonce_last. apply Forall_app. split.
  - rewrite <- (firstn_skipn 15 r) in F. apply Forall_app in F. apply F.
  - constructor; [|constructor]. destruct s; [reflexivity|]. pose proof (land_lt64 (nth 15 r 0)). lia.
Qed.

Lemma leval_app : forall a b, leval (a ++ b) = leval a + 256 ^ lenN a * leval b.
Proof.
  induction a as [|x a IH]; intros b.
  - change (lenN []) with 0. rewrite N.pow_0_r. cbn [leval app]. lia.
  - assert (E : lenN (x :: a) = N.succ (lenN a)) by (unfold lenN; simpl; lia).
    rewrite E, N.pow_succ_r'. cbn [leval app]. rewrite IH. lia.
Qed.

Lemma initNonce_val : forall r s, rand16 r ->
  exists lo top, leval (initNonce r s) = lo + 2 ^ 120 * top /\ lo < 2 ^ 120 /\
    (if s then top = 127 else top < 64).
Proof.
  intros r s [L F]. rewrite initNonce_last, leval_app.
  assert (L15 : lenN (firstn 15 r) = 15) by (unfold lenN; rewrite firstn_length, L; reflexivity).
  rewrite L15. change (256 ^ 15) with (2 ^ 120).
  exists (leval (firstn 15 r)), (if s then 127 else N.land (nth 15 r 0) 63). split; [|split].
  - f_equal. f_equal. cbn [leval]. lia.
  - change (2 ^ 120) with (256 ^ 15). rewrite <- L15. apply leval_bound.
    rewrite <- (firstn_skipn 15 r) in F. apply Forall_app in F. apply F.
  - destruct s; auto. apply land_lt64.
Qed.

(** ** Sending *)
Global Opaque zeroBuf.


Definition encFrameBytes (a : aead) (nonce : bytes) (tag : N) (body : bytes) : bytes :=
  let sz := N.of_nat noncesize + 8 + lenN body + N.of_nat overhead in
  let sealed := seal a nonce (putU64 sz) ((magic7bytes ++ [tag]) ++ body) in
  let cut := (List.length sealed - overhead)%nat in
  putU64 sz ++ nonce ++ firstn cut sealed ++ tagEnc a (putU64 sz) nonce (skipn cut sealed).

Lemma bufRoom_val : bufRoom = maxMessage + 48.
Proof. reflexivity. Qed.

Lemma encSend_err : forall c a ms e last m x e', encSend c a ms e last m = Ok (EErr x, e') ->
  x = ErrTooLong /\ e_nonce e' = e_nonce e /\ e_magic7 e' = e_magic7 e /\ maxMessage < lenN (marshal c m).
Proof.
  unfold encSend, AsGreenpack. intros c a ms e last m x e' H.
  destruct (maxMessage - 1024 <? lenN (m_job m)); [discriminate|]. cbn [bind] in H.
  destruct (N.ltb_spec maxMessage (lenN (marshal c m))) as [L|L].
  - inversion H; subst. auto.
  - destruct (encSelect c e last m _ _) as [[[tag by1] buf4]|] in H; [|discriminate]. cbn [bind] in H.
    unfold encFinish in H. destruct (negb _) in H; [discriminate|]. destruct (_ <? _) in H; discriminate.
Qed.

Lemma encSend_frame : forall c a ms e last m f e', codec_ok c ->
  encSend c a ms e last m = Ok (EFrame f, e') -> ms m <= bufRoom ->
  exists body, f = encFrameBytes a (e_nonce e) (e_magic7 e) body /\
    (e_magic7 e = 0 \/ e_magic7 e = 1 \/ e_magic7 e = 7) /\
    handleDecompress c (e_magic7 e) body = Ok (marshal c m) /\
    e_nonce e' = incrementNonce (e_nonce e) /\ e_magic7 e' = e_magic7 e /\ lenN body <= maxMessage + 32.
Proof.
  unfold encSend, AsGreenpack. intros c a ms e last m f e' [U D] H IP.
  destruct (maxMessage - 1024 <? lenN (m_job m)); [discriminate|]. cbn [bind] in H.
  destruct (N.ltb_spec maxMessage (lenN (marshal c m))) as [L|L]; [discriminate|].
  destruct (N.leb_spec (ms m) bufRoom) as [_|X]; [|lia].
  remember (marshal c m ++ _) as buf3 eqn:B3.
  assert (F3 : firstn (List.length (marshal c m)) buf3 = marshal c m).
  { subst buf3. rewrite firstn_app, Nat.sub_diag, firstn_O, app_nil_r, firstn_all. auto. }
  clear B3.
  assert (G : forall tag by1 buf4, encSelect c e last m (marshal c m) buf3 = Ok (tag, by1, buf4) ->
    (lenN by1 <= bufRoom -> firstn (List.length by1) buf4 = by1) /\
    (tag = 0 \/ tag = 1 \/ tag = 7) /\ handleDecompress c tag by1 = Ok (marshal c m)).
  { intros tag by1 buf4 G. unfold encSelect in G. remember (N.to_nat bufRoom) as br eqn:BR.
    destruct (m_nosys m); [injection G as <- <- <-; auto|].
    destruct (e_compress e); [|injection G as <- <- <-; auto]. revert G.
    generalize (if e_server e then (if magic7b_out_of_bounds <=? last then e_magic7 e else last) else e_magic7 e).
    intros t G. cbv zeta in G. destruct (handleCompress c t (marshal c m)) as [by1'|] eqn:HC; [|discriminate].
    unfold bind in G. injection G as <- <- <-. split.
    - intros LB. rewrite firstn_app. rewrite (@firstn_all2 _ br by1') by (rewrite BR; unfold lenN in LB; lia).
      rewrite Nat.sub_diag, firstn_O, app_nil_r, firstn_all. auto.
    - unfold handleCompress in HC. unfold handleDecompress.
      destruct (N.eqb_spec t 0); [inversion HC; subst; auto|].
      destruct (N.eqb_spec t 1); [inversion HC; subst; simpl; rewrite D; auto|].
      destruct (N.eqb_spec t magic7b_no_system_compression); [|discriminate].
      inversion HC; subst; auto. }
  destruct (encSelect c e last m (marshal c m) buf3) as [[[tag by1] buf4]|] eqn:E; [|discriminate].
  destruct (G tag by1 buf4 eq_refl) as (F4 & T & HD). clear G. cbn [bind] in H. unfold encFinish in H.
  destruct (N.eqb_spec (e_magic7 e) tag) as [ET|]; cbn [negb] in H; [|discriminate].
  destruct (N.ltb_spec (maxMessage + 80) (N.of_nat noncesize + 8 + lenN by1 + N.of_nat overhead + 8)) as [X|LB];
    [discriminate|].
  unfold noncesize, overhead in LB.
  inversion H; subst f e'. clear H. subst tag. exists by1.
  rewrite F4 by (rewrite bufRoom_val; lia).
  split; [reflexivity|]. repeat split; auto. lia.
Qed.

Lemma encFrame_len : forall a nonce tag body, aead_ok a -> List.length nonce = 16%nat ->
  List.length (encFrameBytes a nonce tag body) = (48 + List.length body)%nat.
Proof.
  intros a nonce tag body (O & SL & T) L. unfold encFrameBytes.
  rewrite !app_length, putU64_len, L, firstn_length.
  match goal with |- context [tagEnc a ?x ?y ?z] => destruct (T x y z) as [_ ->] end.
  - rewrite skipn_length, SL. unfold overhead. lia.
  - rewrite SL, app_length. unfold overhead. simpl. lia.
Qed.

(** ** Receiving *)

Lemma decRead_frame : forall c a d last conn nonce tag body m z,
  codec_ok c -> aead_ok a -> List.length nonce = 16%nat ->
  (tag = 0 \/ tag = 1 \/ tag = 7) -> (tag = 1 -> d_decomp d = true) ->
  handleDecompress c tag body = Ok (marshal c m) ->
  lenN body + 40 <= maxMessage ->
  quiet conn -> streamOf conn = encFrameBytes a nonce tag body ++ z ->
  exists mc last' conn', decRead c a d last conn =
      Ok (RMsg m, mkDec mc (d_decomp d) (d_server d), last', conn') /\
    streamOf conn' = z /\ quiet conn' /\ (tag <> 7 -> last' = tag).
Proof.
  intros c a d last conn nonce tag body m z [U D] AO LN T HD1 HD L Q S.
  pose proof (encFrame_len a nonce tag body AO LN) as FL.
  destruct AO as (AOp & SL & TG).
  set (sz := N.of_nat noncesize + 8 + lenN body + N.of_nat overhead) in *.
  assert (Esz : sz = lenN body + 40) by (unfold sz, noncesize, overhead; lia).
  unfold decRead.
  destruct (readFull_quiet_ok conn 8 [] Q) as (c1 & E1 & S1 & Q1).
  { rewrite S, app_length, FL. lia. }
  rewrite E1. rewrite S in *. cbn [app].
  unfold encFrameBytes in *. fold sz in S, S1, FL |- *.
  set (sealed := seal a nonce (putU64 sz) ((magic7bytes ++ [tag]) ++ body)) in *.
  assert (SLen : List.length sealed = (8 + List.length body + 16)%nat).
  { unfold sealed. rewrite SL, app_length. simpl. lia. }
  set (cut := (List.length sealed - overhead)%nat) in *.
  assert (Cut : cut = (8 + List.length body)%nat) by (unfold cut, overhead; lia).
  set (tg := skipn cut sealed) in *.
  assert (TL : List.length tg = 16%nat) by (unfold tg; rewrite skipn_length; lia).
  destruct (TG (putU64 sz) nonce tg TL) as [TD TEL].
  set (tge := tagEnc a (putU64 sz) nonce tg) in *.
  replace (firstn 8 ((putU64 sz ++ nonce ++ firstn cut sealed ++ tge) ++ z)) with (putU64 sz) by reflexivity.
  replace (skipn 8 ((putU64 sz ++ nonce ++ firstn cut sealed ++ tge) ++ z))
    with ((nonce ++ firstn cut sealed ++ tge) ++ z) in S1 by reflexivity.
  rewrite put_get by (unfold maxMessage in L; lia).
  destruct (N.ltb_spec maxMessage sz) as [X|_]; [lia|].
  assert (EL : N.to_nat sz = List.length (nonce ++ firstn cut sealed ++ tge)).
  { rewrite !app_length, LN, firstn_length, TEL. unfold lenN in Esz. lia. }
  destruct (readFull_quiet_ok c1 (N.to_nat sz) [] Q1) as (c2 & E2 & S2 & Q2).
  { rewrite S1, app_length, EL. lia. }
  rewrite E2, S1, EL. cbn [app].
  rewrite S1, EL in S2. rewrite skipn_app, skipn_all, Nat.sub_diag in S2. simpl in S2.
  rewrite firstn_app, firstn_all, Nat.sub_diag, firstn_O, app_nil_r.
  set (enc := nonce ++ firstn cut sealed ++ tge) in *.
  destruct (Nat.ltb_spec (List.length enc) overhead) as [X|_]; [unfold overhead in X; lia|].
  assert (F16 : firstn noncesize enc = nonce).
  { unfold enc, noncesize. rewrite firstn_app, <- LN, Nat.sub_diag, firstn_O, app_nil_r, firstn_all. auto. }
  rewrite F16.
  assert (ELen : List.length enc = (16 + cut + 16)%nat).
  { unfold enc. rewrite !app_length, LN, firstn_length, TEL. lia. }
  assert (C2 : (List.length enc - overhead = List.length (nonce ++ firstn cut sealed))%nat).
  { rewrite app_length, firstn_length, ELen, LN. unfold overhead. lia. }
  rewrite C2.
  assert (F2 : firstn (List.length (nonce ++ firstn cut sealed)) enc = nonce ++ firstn cut sealed).
  { unfold enc. rewrite app_assoc, firstn_app, firstn_all, Nat.sub_diag, firstn_O, app_nil_r. auto. }
  assert (K2 : skipn (List.length (nonce ++ firstn cut sealed)) enc = tge).
  { unfold enc. rewrite app_assoc, skipn_app, skipn_all, Nat.sub_diag. reflexivity. }
  rewrite F2, K2, TD.
  replace ((nonce ++ firstn cut sealed) ++ tg) with (nonce ++ sealed)
    by (rewrite <- app_assoc; unfold tg; rewrite firstn_skipn; auto).
  replace (firstn noncesize (nonce ++ sealed)) with nonce
    by (unfold noncesize; rewrite firstn_app, <- LN, Nat.sub_diag, firstn_O, app_nil_r, firstn_all; auto).
  replace (skipn noncesize (nonce ++ sealed)) with sealed
    by (unfold noncesize; rewrite <- LN, skipn_app, skipn_all, Nat.sub_diag; reflexivity).
  unfold sealed. rewrite AOp. cbv zeta.
  set (mc := firstn 8 _). assert (MC : mc = magic7bytes ++ [tag]) by reflexivity.
  rewrite MC. clear mc MC.
  assert (B : bytes_eqb (firstn 7 (magic7bytes ++ [tag])) magic7bytes = true) by reflexivity.
  rewrite B. clear B. cbn [negb].
  replace (nth 7 (magic7bytes ++ [tag]) 0) with tag by reflexivity.
  destruct (Nat.ltb_spec (List.length ((magic7bytes ++ [tag]) ++ body)) 8) as [X|_].
  { rewrite app_length in X. simpl in X. lia. }
  replace (skipn 8 ((magic7bytes ++ [tag]) ++ body)) with body by reflexivity.
  replace (negb (d_decomp d) && (tag =? 1)) with false.
  2:{ destruct (N.eqb_spec tag 1); [rewrite HD1; auto|rewrite andb_false_r; auto]. }
  rewrite HD. cbn [bind]. rewrite U. do 3 eexists. split; [reflexivity|]. split; [exact S2|]. split; [exact Q2|].
  intros T7. destruct (N.eqb_spec tag magic7b_no_system_compression); [contradiction|reflexivity].
Qed.

(** Invariant of an encoder over a run. *)
Lemma encRun_frames : forall c a ms calls e rs e', codec_ok c ->
  encRun c a ms e calls = Ok (rs, e') ->
  Forall (fun k => ms (snd k) <= bufRoom) calls ->
  exists ns bodies,
    framesOf rs = map (fun p => encFrameBytes a (incrN (fst p) (e_nonce e)) (e_magic7 e) (snd p)) (combine ns bodies) /\
    ns = seq 0 (List.length (framesOf rs)) /\ List.length bodies = List.length (framesOf rs) /\
    Forall2 (fun m b => handleDecompress c (e_magic7 e) b = Ok (marshal c m)) (sentOf calls rs) bodies /\
    (bodies <> [] -> e_magic7 e = 0 \/ e_magic7 e = 1 \/ e_magic7 e = 7).
Proof.
  intros c a ms calls. induction calls as [|[last m] cs IH]; intros e rs e' CO H L.
  - inversion H; subst. exists [], []. cbn. split; [auto|]. split; [auto|]. split; [auto|]. split; [constructor|]. congruence.
  - cbn [encRun] in H. destruct (encSend c a ms e last m) as [[r e1]|] eqn:ES; [|discriminate].
    unfold bind at 1 in H. destruct (encRun c a ms e1 cs) as [[rs1 e2]|] eqn:ER; [|discriminate].
    cbn [bind] in H. inversion H; subst. inversion L; subst.
    destruct (IH _ _ _ CO ER H3) as (ns & bodies & F & NS & LB & F2 & T). clear IH.
    destruct r as [x|f].
    + apply encSend_err in ES. destruct ES as (_ & EN & EM & _). rewrite EN, EM in *.
      exists ns, bodies. unfold framesOf, sentOf in *. simpl. auto.
    + apply encSend_frame in ES; auto. destruct ES as (body & -> & TT & HD & EN & EM & _).
      rewrite EN, EM in *.
      exists (0%nat :: map S ns), (body :: bodies).
      assert (FO : framesOf (EFrame (encFrameBytes a (e_nonce e) (e_magic7 e) body) :: rs1) =
        encFrameBytes a (e_nonce e) (e_magic7 e) body :: framesOf rs1) by reflexivity.
      rewrite FO. clear FO. split; [|split; [|split; [|split]]].
      * simpl. f_equal. rewrite F. clear -LB NS.
        assert (X : forall (ns : list nat) (bs : list bytes),
           map (fun p => encFrameBytes a (incrN (fst p) (incrementNonce (e_nonce e))) (e_magic7 e) (snd p)) (combine ns bs) =
           map (fun p => encFrameBytes a (incrN (fst p) (e_nonce e)) (e_magic7 e) (snd p)) (combine (map S ns) bs)).
        { induction ns0; destruct bs; simpl; auto. f_equal; auto.
          rewrite incrN_comm. reflexivity. }
        apply X.
      * simpl. f_equal. rewrite NS at 1. apply seq_shift.
      * simpl. auto.
      * unfold sentOf. simpl. constructor; auto.
      * auto.
Qed.
