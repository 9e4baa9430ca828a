From Coq Require Import List NArith Lia Bool String Arith Permutation.
From Verif Require Import Base Wire_Model Wire_Spec Wire_Proofs.
Import ListNotations.
Open Scope N_scope.

(** ** Reading from an arbitrary, possibly failing, connection *)

Definition isPrefix {A} (a b : list A) : Prop := exists z, b = a ++ z.

Lemma firstn_prefix : forall A (a b z : list A) n, b = a ++ z -> (n <= List.length a)%nat ->
  firstn n a = firstn n b.
Proof. intros. subst. rewrite firstn_app. replace (n - List.length a)%nat with 0%nat by lia. rewrite firstn_O, app_nil_r; auto. Qed.

Lemma skipn_prefix : forall A (a b : list A) n, isPrefix a b -> (n <= List.length a)%nat ->
  isPrefix (skipn n a) (skipn n b).
Proof.
  intros A a b n [z ->] L. exists z. rewrite skipn_app. replace (n - List.length a)%nat with 0%nat by lia. auto.
Qed.

(** Whatever the connection does, when its bytes are a prefix of a frame
    followed by [z], a message that comes out is the framed one. *)
Lemma readMessage_prefix : forall c w last conn tag body m z,
  codec_ok c -> (tag = 0 \/ tag = 1 \/ tag = 7) ->
  handleDecompress c tag body = Ok (marshal c m) ->
  lenN body <= maxMessage ->
  isPrefix (streamOf conn) (frame tag body ++ z) ->
  exists r w' last' conn', readMessage c w last conn = Ok (r, w', last', conn') /\
    match r with
    | RMsg m' => m' = m /\ isPrefix (streamOf conn') z
    | RErr _ => True
    end.
Proof.
  intros c w last conn tag body m z [U D] T HD L P.
  unfold readMessage.
  destruct (readFull conn 8 []) as [[mc e] c1] eqn:E1. destruct e as [x|]; [do 4 eexists; split; [reflexivity|exact I]|].
  apply readFull_ok in E1. destruct E1 as (L1 & -> & S1).
  destruct P as [y P].
  rewrite (firstn_prefix _ _ _ _ _ P L1), firstn_frame8. cbn [app].
  assert (B : bytes_eqb (firstn 7 (magic7bytes ++ [tag])) magic7bytes = true) by reflexivity.
  rewrite B. clear B. cbn [negb].
  replace (nth 7 (magic7bytes ++ [tag]) 0) with tag by reflexivity.
  destruct (readFull c1 8 []) as [[lb e] c2] eqn:E2. destruct e as [x|]; [do 4 eexists; split; [reflexivity|exact I]|].
  apply readFull_ok in E2. destruct E2 as (L2 & -> & S2).
  assert (P1 : isPrefix (streamOf c1) (putU64 (lenN body) ++ body ++ z)).
  { rewrite S1, <- skipn_frame8 with (tag := tag). apply skipn_prefix; auto. exists y; auto. }
  destruct P1 as [y1 P1].
  rewrite (firstn_prefix _ _ _ _ _ P1 L2).
  replace (firstn 8 (putU64 (lenN body) ++ body ++ z)) with (putU64 (lenN body)) by reflexivity.
  cbn [app]. rewrite put_get by (unfold maxMessage in L; lia).
  destruct (N.ltb_spec maxMessage (lenN body)) as [X|_]; [lia|].
  replace (N.to_nat (lenN body)) with (List.length body) by (unfold lenN; lia).
  destruct (readFull c2 (List.length body) []) as [[bd e] c3] eqn:E3.
  destruct e as [x|]; [do 4 eexists; split; [reflexivity|exact I]|].
  apply readFull_ok in E3. destruct E3 as (L3 & -> & S3).
  assert (P2 : isPrefix (streamOf c2) (body ++ z)).
  { rewrite S2. replace (body ++ z) with (skipn 8 (putU64 (lenN body) ++ body ++ z)) by reflexivity.
    apply skipn_prefix; auto. exists y1; auto. }
  assert (P3 : isPrefix (streamOf c3) z).
  { rewrite S3. replace z with (skipn (List.length body) (body ++ z)).
    - apply skipn_prefix; auto.
    - rewrite skipn_app, skipn_all, Nat.sub_diag. reflexivity. }
  destruct P2 as [y2 P2].
  rewrite (firstn_prefix _ _ _ _ _ P2 L3).
  rewrite firstn_app, firstn_all, Nat.sub_diag, firstn_O, app_nil_r. cbn [app].
  destruct (w_decomp w) eqn:DC; cbn [negb].
  - rewrite HD. unfold bind. rewrite U. do 4 eexists. split; [reflexivity|]. simpl. auto.
  - destruct T as [->|[->| ->]]; cbn [N.eqb negb magic7b_none Pos.eqb decodeMagic7 magic7b_no_system_compression
       magic7b_s2 magic7b_lz4 magic7b_zstd01 magic7b_zstd03 magic7b_zstd07 magic7b_zstd11];
    rewrite ?HD; unfold bind;
    try (inversion HD; subst body); rewrite U;
    do 4 eexists; (split; [reflexivity|]); simpl; auto.
Qed.

Lemma allSent_frames : forall c w calls outs,
  codec_ok c -> allSent c w calls outs ->
  Forall2 (fun k o => exists tag body, o = frame tag body /\ (tag = 0 \/ tag = 1 \/ tag = 7) /\
      handleDecompress c tag body = Ok (marshal c (s_msg k))) calls outs.
Proof.
  induction calls as [|k ks IH]; intros [|o os] H1 H2; simpl in H2; try contradiction; constructor.
  - destruct H2 as [(rest & E) _]. apply sendMessage_frame in E. destruct E as (tag & body & F & O & _).
    apply frameOf_inv in F; auto. destruct F. exists tag, body. auto.
  - apply IH; tauto.
Qed.

Lemma lenN_frame : forall tag body, lenN (frame tag body) = 16 + lenN body.
Proof. intros. unfold lenN. rewrite frame_len. lia. Qed.

Lemma readLoop_all : forall c calls outs w last conn tail,
  codec_ok c ->
  Forall2 (fun k o => exists tag body, o = frame tag body /\ (tag = 0 \/ tag = 1 \/ tag = 7) /\
      handleDecompress c tag body = Ok (marshal c (s_msg k))) calls outs ->
  Forall (fun o => lenN o <= maxMessage + 16) outs ->
  quiet conn -> streamOf conn = List.concat outs ++ tail ->
  exists w' last' conn',
    readLoop c (List.length calls) w last conn = Ok (map s_msg calls, w', last', conn', None) /\
    streamOf conn' = tail /\ quiet conn'.
Proof.
  intros c calls outs w last conn tail CO F. revert w last conn.
  induction F as [|k o ks os H F IH]; intros w last conn L Q S.
  - simpl in *. eauto 8.
  - destruct H as (tag & body & -> & T & HD). inversion L; subst. rewrite lenN_frame in *.
    simpl in S. rewrite <- app_assoc in S.
    destruct (readMessage_frame c w last conn tag body (s_msg k) (List.concat os ++ tail)) as (w1 & c1 & E & S1 & Q1 & _); auto.
    { unfold maxMessage in *; lia. }
    cbn [List.length readLoop]. rewrite E. unfold bind.
    destruct (IH w1 (if tag =? 7 then if w_decomp w then last else 7 else tag) c1) as (w2 & l2 & c2 & E2 & S2 & Q2); auto.
    rewrite E2. simpl. eauto 8.
Qed.

Lemma readLoop_prefix : forall c fuel calls outs w last conn,
  codec_ok c ->
  Forall2 (fun k o => exists tag body, o = frame tag body /\ (tag = 0 \/ tag = 1 \/ tag = 7) /\
      handleDecompress c tag body = Ok (marshal c (s_msg k))) calls outs ->
  Forall (fun o => lenN o <= maxMessage + 16) outs ->
  isPrefix (streamOf conn) (List.concat outs) ->
  exists ms w' last' conn' e,
    readLoop c fuel w last conn = Ok (ms, w', last', conn', e) /\
    isPrefix ms (map s_msg calls) /\ (e = None -> List.length ms = fuel).
Proof.
  intros c fuel. induction fuel as [|f IH]; intros calls outs w last conn CO F L P.
  - simpl. exists [], w, last, conn, None. split; auto. split; auto. exists (map s_msg calls); auto.
  - cbn [readLoop]. destruct F as [|k o ks os H F].
    + destruct P as [z P]. simpl in P. symmetry in P. apply app_eq_nil in P. destruct P as [P _].
      unfold readMessage.
      destruct (readFull conn 8 []) as [[mc e] c1] eqn:E1.
      destruct e as [x|].
      * simpl. do 5 eexists. split; [reflexivity|]. split; [exists []; auto|discriminate].
      * apply readFull_ok in E1. rewrite P in E1. simpl in E1. lia.
    + destruct H as (tag & body & -> & T & HD). inversion L; subst. rewrite lenN_frame in *.
      simpl in P.
      destruct (readMessage_prefix c w last conn tag body (s_msg k) (List.concat os)) as (r & w1 & l1 & c1 & E & R); auto.
      { unfold maxMessage in *; lia. }
      rewrite E. unfold bind at 1. destruct r as [m'|e'].
      * destruct R as [-> P1].
        destruct (IH ks os w1 l1 c1) as (ms & w2 & l2 & c2 & e2 & E2 & P2 & N2); auto.
        rewrite E2. simpl. exists (s_msg k :: ms), w2, l2, c2, e2. split; auto. split.
        -- destruct P2 as [z ->]. exists z; auto.
        -- intros; simpl; f_equal; auto.
      * exists [], w1, l1, c1, (Some e'). split; auto. split; [exists (map s_msg (k :: ks)); auto|discriminate].
Qed.

(** ** Senders sharing one mutex *)

Lemma setNth_length : forall A (l : list A) i x, List.length (setNth l i x) = List.length l.
Proof. induction l; destruct i; simpl; auto. Qed.

Lemma setNth_same : forall A (l : list A) i x y, nth_error l i = Some y -> nth_error (setNth l i x) i = Some x.
Proof. induction l; destruct i; simpl; intros; try discriminate; eauto. Qed.

Lemma setNth_other : forall A (l : list A) i j x, i <> j -> nth_error (setNth l i x) j = nth_error l j.
Proof. induction l; destruct i, j; simpl; intros; auto; try congruence. Qed.

(** Invariant for one shared mutex [mu]: finished senders in order, at most one
    holder, with a known remainder. *)
Definition winv (mu : nat) (ws : list (list bytes)) (s : wsys) : Prop :=
  List.length (ws_senders s) = List.length ws /\
  exists order cur,
    NoDup order /\
    (forall i, In i order <-> exists t, nth_error (ws_senders s) i = Some t /\ sn_phase t = Finished) /\
    (forall i t, nth_error (ws_senders s) i = Some t ->
        sn_mutex t = mu /\
        (sn_phase t = Idle -> nth_error ws i = Some (sn_parts t)) /\
        (sn_phase t = Holding -> exists k, cur = Some (i, k))) /\
    match cur with
    | None => ws_held s = [] /\ ws_wire s = List.concat (map (fun i => List.concat (nth i ws [])) order)
    | Some (i, k) => ws_held s = [mu] /\
        (exists t, nth_error (ws_senders s) i = Some t /\ sn_phase t = Holding /\
          sn_parts t = skipn k (nth i ws []) /\ (k <= List.length (nth i ws []))%nat) /\
        ws_wire s = List.concat (map (fun i => List.concat (nth i ws [])) order) ++
                    List.concat (firstn k (nth i ws []))
    end.

Lemma concat_firstn_S : forall (l : list bytes) k p ps, skipn k l = p :: ps ->
  List.concat (firstn (S k) l) = List.concat (firstn k l) ++ p.
Proof.
  induction l as [|a l IH]; intros k p ps H; destruct k; simpl in H; try discriminate.
  - inversion H; subst. simpl. rewrite app_nil_r. reflexivity.
  - simpl. rewrite <- app_assoc. f_equal. rewrite <- IH with (ps := ps); auto.
Qed.

Lemma skipn_S_tl : forall A (l : list A) k p ps, skipn k l = p :: ps -> skipn (S k) l = ps.
Proof. induction l as [|a l IH]; intros k p ps H; destruct k; simpl in H; try discriminate.
  - inversion H; auto. - simpl. destruct l; [destruct k; discriminate|]. eapply IH; eauto. Qed.

Lemma winv_init : forall mu ws, winv mu ws (winit (map (fun p => (mu, p)) ws)).
Proof.
  intros. unfold winv, winit. simpl. split; [rewrite !map_length; auto|].
  exists [], None. split; [constructor|]. split; [|split].
  - intros i. split; [intros []|]. intros (t & H & P).
    rewrite map_map in H. rewrite nth_error_map in H. destruct (nth_error ws i); inversion H; subst. discriminate.
  - intros i t H. rewrite map_map in H. rewrite nth_error_map in H. destruct (nth_error ws i) eqn:E; inversion H; subst.
    simpl. split; auto. split; auto; discriminate.
  - auto.
Qed.

Lemma winv_step : forall mu ws s i, winv mu ws s -> winv mu ws (wstep s i).
Proof.
  intros mu ws s i I. unfold wstep.
  destruct (nth_error (ws_senders s) i) as [t|] eqn:Et; auto.
  destruct (sn_phase t) eqn:Ep; auto.
  - (* lock *)
    destruct (existsb _ _) eqn:Ex; auto.
    destruct I as (Len & order & cur & ND & FO & TI & C).
    destruct (TI i t Et) as (M & Id & _). rewrite M in *.
    destruct cur as [[j k]|].
    { destruct C as (Hh & _). rewrite Hh in Ex. simpl in Ex. rewrite Nat.eqb_refl in Ex. discriminate. }
    destruct C as (Hh & Hw).
    split; [simpl; rewrite setNth_length; auto|].
    exists order, (Some (i, 0%nat)). split; auto. split; [|split].
    + intros j. rewrite FO. simpl. destruct (Nat.eq_dec i j) as [<-|N].
      * erewrite setNth_same by eauto. split; intros (x & A & B).
        -- rewrite Et in A; inversion A; subst. congruence.
        -- inversion A; subst. discriminate.
      * rewrite setNth_other by auto. tauto.
    + simpl. intros j t' H. destruct (Nat.eq_dec i j) as [<-|N].
      * erewrite setNth_same in H by eauto. inversion H; subst. simpl. split; auto. split; [discriminate|]. eauto.
      * rewrite setNth_other in H by auto. destruct (TI j t' H) as (A & B & D). split; auto. split; auto.
        intros P. destruct (D P) as (k & X). discriminate.
    + simpl. rewrite Hh. split; auto. split.
      * eexists. split; [eapply setNth_same; eauto|]. simpl. split; auto. split; [|lia].
        erewrite nth_error_nth; [reflexivity|auto].
      * rewrite app_nil_r. auto.
  - (* holding *)
    destruct I as (Len & order & cur & ND & FO & TI & C).
    destruct (TI i t Et) as (M & _ & Ho). destruct (Ho Ep) as (k & ->). rewrite M in *.
    destruct C as (Hh & (t0 & Et0 & _ & Pt & Lk) & Hw). rewrite Et in Et0. inversion Et0; subst t0. clear Et0.
    destruct (sn_parts t) as [|p ps] eqn:Parts.
    + (* unlock *)
      split; [simpl; rewrite setNth_length; auto|].
      assert (k = List.length (nth i ws [])).
      { symmetry in Pt. apply (f_equal (@List.length _)) in Pt. rewrite skipn_length in Pt. simpl in Pt. lia. }
      subst k.
      assert (Nin : ~ In i order). { intros X. apply FO in X. destruct X as (x & A & B). congruence. }
      exists (order ++ [i]), None. split; [|split; [|split]].
      * pose proof (Add_app i order []) as AA. rewrite app_nil_r in AA. apply (NoDup_Add AA). auto.
      * intros j. rewrite in_app_iff, FO. simpl. destruct (Nat.eq_dec i j) as [<-|N].
        -- erewrite setNth_same by eauto. split; intros; eauto.
        -- rewrite setNth_other by auto. split; [intros [X|[X|[]]]; auto; congruence|auto].
      * simpl. intros j t' H. destruct (Nat.eq_dec i j) as [<-|N].
        -- erewrite setNth_same in H by eauto. inversion H; subst. simpl. split; auto. split; discriminate.
        -- rewrite setNth_other in H by auto. destruct (TI j t' H) as (A & B & D). split; auto. split; auto.
           intros P. destruct (D P) as (k & X). inversion X; subst. congruence.
      * simpl. rewrite Hh. simpl. destruct (Nat.eq_dec mu mu); [|congruence]. split; auto.
        rewrite map_app, concat_app. simpl. rewrite app_nil_r, Hw, firstn_all. auto.
    + (* write *)
      split; [simpl; rewrite setNth_length; auto|].
      exists order, (Some (i, S k)). split; auto. split; [|split].
      * intros j. rewrite FO. simpl. destruct (Nat.eq_dec i j) as [<-|N].
        -- erewrite setNth_same by eauto. split; intros (x & A & B).
           ++ congruence.
           ++ inversion A; subst. discriminate.
        -- rewrite setNth_other by auto. tauto.
      * simpl. intros j t' H. destruct (Nat.eq_dec i j) as [<-|N].
        -- erewrite setNth_same in H by eauto. inversion H; subst. simpl. split; auto. split; [discriminate|]. eauto.
        -- rewrite setNth_other in H by auto. destruct (TI j t' H) as (A & B & D). split; auto. split; auto.
           intros P. destruct (D P) as (k' & X). inversion X; subst. congruence.
      * simpl. split; auto. split.
        -- eexists. split; [eapply setNth_same; eauto|]. simpl. split; auto. symmetry in Pt. split.
           ++ symmetry. eapply skipn_S_tl; eauto.
           ++ apply (f_equal (@List.length _)) in Pt. rewrite skipn_length in Pt. simpl in Pt. lia.
        -- rewrite Hw, <- app_assoc. f_equal. symmetry. eapply (concat_firstn_S (nth i ws [])); symmetry; eauto.
Qed.

Lemma winv_run : forall mu ws sched s, winv mu ws s -> winv mu ws (wrun s sched).
Proof. induction sched; simpl; intros; auto. apply IHsched. apply winv_step. auto. Qed.
