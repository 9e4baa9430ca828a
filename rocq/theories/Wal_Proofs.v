(** Proofs about frames, the image of a log on disk, and opening it. *)
From Coq Require Import List ZArith Lia Bool.
From Verif Require Import Base Rle_Model Rle_Spec Rle_Proofs Wal_Model Wal_Spec.
Import ListNotations.
Open Scope Z_scope.

Lemma beqb_eq : forall a b, beqb a b = true <-> a = b.
Proof. intros. unfold beqb. destruct (list_eq_dec Z.eq_dec a b); split; congruence. Qed.
Lemma beqb_refl : forall a, beqb a a = true.
Proof. intros. apply beqb_eq. reflexivity. Qed.

(** ** Frames *)

Lemma skipn_exact : forall A (a b : list A), skipn (length a) (a ++ b) = b.
Proof. intros. rewrite skipn_app, skipn_all, Nat.sub_diag. reflexivity. Qed.
Lemma firstn_exact : forall A (a b : list A), firstn (length a) (a ++ b) = a.
Proof. intros. apply firstn_app_exact. reflexivity. Qed.

Definition hdr (b : bytes) : bytes :=
  let n := Z.of_nat (length b) in
  if n <? 256 then [196; n]
  else if n <? 65536 then [197; n / 256; n mod 256]
  else [198; n / 16777216 mod 256; n / 65536 mod 256; n / 256 mod 256; n mod 256].
Lemma frame_hdr : forall b, frame b = hdr b ++ b.
Proof. intros. unfold frame, hdr. destruct (_ <? 256); [reflexivity|]. destruct (_ <? 65536); reflexivity. Qed.
Lemma hdr_len : forall b, (2 <= length (hdr b) <= 5)%nat.
Proof. intros. unfold hdr. destruct (_ <? 256); [cbn; lia|]. destruct (_ <? 65536); cbn; lia. Qed.
Lemma frame_len : forall b, length (frame b) = (length (hdr b) + length b)%nat.
Proof. intros. rewrite frame_hdr, app_length. reflexivity. Qed.
Lemma frame_len5 : forall b, 3 <= Z.of_nat (length b) -> (5 <= length (frame b))%nat.
Proof. intros. rewrite frame_len. pose proof (hdr_len b). lia. Qed.

Lemma be4 : forall n, 0 <= n < 4294967296 ->
  n / 16777216 mod 256 * 16777216 + n / 65536 mod 256 * 65536 + n / 256 mod 256 * 256 + n mod 256 = n.
Proof.
  intros.
  replace (n / 16777216) with (n / 256 / 256 / 256) by (rewrite !Z.div_div by lia; reflexivity).
  replace (n / 65536) with (n / 256 / 256) by (rewrite !Z.div_div by lia; reflexivity).
  pose proof (Z.div_mod n 256 ltac:(lia)). pose proof (Z.mod_pos_bound n 256 ltac:(lia)).
  set (a := n / 256) in *.
  pose proof (Z.div_mod a 256 ltac:(lia)). pose proof (Z.mod_pos_bound a 256 ltac:(lia)).
  set (b := a / 256) in *.
  pose proof (Z.div_mod b 256 ltac:(lia)). pose proof (Z.mod_pos_bound b 256 ltac:(lia)).
  set (d := b / 256) in *. rewrite (Z.mod_small d) by lia. lia.
Qed.

(** what follows the header does not matter, as long as five bytes are there *)
Lemma unframe_frame : forall b rest, Z.of_nat (length b) < 4294967296 ->
  unframe (frame b ++ rest) = Some (length (frame b), length (hdr b)).
Proof.
  intros b rest Hb. rewrite frame_len. unfold frame, hdr.
  destruct (Z.ltb_spec (Z.of_nat (length b)) 256) as [Hs|Hs].
  { cbn [unframe app]. rewrite Nat2Z.id. f_equal. f_equal; cbn [length]; lia. }
  destruct (Z.ltb_spec (Z.of_nat (length b)) 65536).
  - cbn [unframe app length]. f_equal. f_equal.
    rewrite (Z.mul_comm _ 256), <- Z.div_mod by lia. lia.
  - cbn [unframe app length]. rewrite be4 by lia. f_equal. f_equal. lia.
Qed.
Lemma unframe_prefix : forall b k, Z.of_nat (length b) < 4294967296 -> 3 <= Z.of_nat (length b) -> (5 <= k)%nat ->
  unframe (firstn k (frame b)) = Some (length (frame b), length (hdr b)).
Proof.
  intros b k Hb H3 Hk. rewrite frame_len. unfold frame, hdr.
  destruct (Z.ltb_spec (Z.of_nat (length b)) 256) as [Hs|Hs].
  { do 5 (destruct k as [|k]; [lia|]). cbn [firstn unframe]. rewrite Nat2Z.id. f_equal. f_equal; cbn [length]; lia. }
  destruct (Z.ltb_spec (Z.of_nat (length b)) 65536).
  - do 5 (destruct k as [|k]; [lia|]). cbn [firstn unframe length]. f_equal. f_equal.
    rewrite (Z.mul_comm _ 256), <- Z.div_mod by lia. lia.
  - do 5 (destruct k as [|k]; [lia|]). cbn [firstn unframe length]. rewrite be4 by lia. f_equal. f_equal. lia.
Qed.

Lemma nextframe_frame : forall pre b rest, fits b ->
  nextframe (pre ++ frame b ++ rest) (length pre) = Got b (frame b) (length pre + length (frame b)).
Proof.
  intros pre b rest Hf. unfold fits in Hf. unfold nextframe. rewrite skipn_exact.
  pose proof (frame_len5 b ltac:(lia)) as H5.
  rewrite app_length.
  destruct (length (frame b) + length rest)%nat eqn:E; [lia|]. rewrite <- E. clear E n.
  replace (length (frame b) + length rest <? 5)%nat with false by (symmetry; apply Nat.ltb_ge; lia).
  rewrite unframe_frame by lia.
  replace (length (frame b) + length rest <? length (frame b))%nat with false by (symmetry; apply Nat.ltb_ge; lia).
  rewrite firstn_exact, Nat.max_r by lia. rewrite frame_hdr at 1. rewrite skipn_exact. reflexivity.
Qed.
Lemma nextframe_eof : forall f, nextframe f (length f) = EOF.
Proof. intros. unfold nextframe. rewrite skipn_all. reflexivity. Qed.
Lemma nextframe_torn : forall pre b k, fits b -> (0 < k < length (frame b))%nat ->
  nextframe (pre ++ firstn k (frame b)) (length pre) = Bad.
Proof.
  intros pre b k Hf Hk. unfold fits in Hf. unfold nextframe. rewrite skipn_exact.
  rewrite firstn_length, Nat.min_l by lia. destruct k as [|k]; [lia|].
  destruct (Nat.ltb_spec (S k) 5); [reflexivity|].
  rewrite unframe_prefix by lia.
  replace (S k <? length (frame b))%nat with true by (symmetry; apply Nat.ltb_lt; lia). reflexivity.
Qed.
(** whatever is read is a piece of the file *)
Lemma nextframe_piece : forall f pos b raw p, nextframe f pos = Got b raw p -> piece b f /\ (pos < p)%nat /\ (pos < length f)%nat.
Proof.
  intros f pos b raw p H. unfold nextframe in H.
  destruct (length (skipn pos f)) eqn:El; [discriminate|]. rewrite <- El in H.
  destruct (_ <? 5)%nat; [discriminate|].
  destruct (unframe (skipn pos f)) as [[tot hd]|]; [|discriminate].
  destruct (Nat.ltb_spec (length (skipn pos f)) tot); [discriminate|].
  injection H as <- <- <-. split; [|split].
  - exists (firstn pos f ++ firstn hd (firstn tot (skipn pos f))), (skipn tot (skipn pos f)).
    rewrite <- app_assoc, (app_assoc (firstn hd _)), firstn_skipn, firstn_skipn. symmetry. apply firstn_skipn.
  - change (pos < pos + Nat.max 5 tot)%nat. lia.
  - rewrite skipn_length in El. lia.
Qed.

(** ** The image of a log *)

Section W.
Context (c : codec) (ok : codec_ok c).

Definition recB (pre : list (entry * bytes)) (b : bytes) : bytes := frame b ++ sumFrame c pre b.
Fixpoint image (pre log : list (entry * bytes)) : bytes :=
  match log with [] => [] | x :: r => recB pre (snd x) ++ image (pre ++ [x]) r end.
Definition parOf (off : nat) (pre : list (entry * bytes)) (x : entry * bytes) : par :=
  mkP (Z.of_nat off) (Z.of_nat (length (frame (snd x)))) (Z.of_nat (length (sumFrame c pre (snd x))))
      (eIndex (fst x)) (eTerm (fst x)) (eRest (fst x)) (b3 c (snd x)).
Fixpoint parsOf (off : nat) (pre log : list (entry * bytes)) : list par :=
  match log with
  | [] => []
  | x :: r => parOf off pre x :: parsOf (off + length (recB pre (snd x))) (pre ++ [x]) r
  end.
Definition slotB (p : par) : bytes := match slot c p with Some b => b | None => [] end.
Definition parImage (ps : list par) : bytes := concat (map slotB ps).

Lemma image_app : forall a pre b, image pre (a ++ b) = image pre a ++ image (pre ++ a) b.
Proof.
  induction a as [|x a IH]; intros; cbn [image app]; [rewrite app_nil_r; reflexivity|].
  rewrite IH, <- !app_assoc. reflexivity.
Qed.
Lemma parsOf_app : forall a off pre b,
  parsOf off pre (a ++ b) = parsOf off pre a ++ parsOf (off + length (image pre a)) (pre ++ a) b.
Proof.
  induction a as [|x a IH]; intros; cbn [image app parsOf length]; [rewrite app_nil_r, Nat.add_0_r; reflexivity|].
  rewrite IH, app_length, Nat.add_assoc, <- app_assoc. reflexivity.
Qed.
Lemma parsOf_len : forall a off pre, length (parsOf off pre a) = length a.
Proof. induction a; intros; cbn [parsOf length]; auto. Qed.
Lemma parsOf_nth : forall a off pre j x, nth_error a j = Some x ->
  exists off', nth_error (parsOf off pre a) j = Some (parOf off' (pre ++ firstn j a) x).
Proof.
  induction a as [|y a IH]; intros off pre [|j] x H; cbn in H; try discriminate.
  - injection H as ->. exists off. cbn. rewrite app_nil_r. reflexivity.
  - destruct (IH (off + length (recB pre (snd y)))%nat (pre ++ [y]) j x H) as (o & Ho). exists o.
    cbn [parsOf nth_error firstn]. rewrite Ho, <- app_assoc. reflexivity.
Qed.
Lemma parImage_app : forall a b, parImage (a ++ b) = parImage a ++ parImage b.
Proof. intros. unfold parImage. rewrite map_app, concat_app. reflexivity. Qed.

Definition slotted (p : par) : Prop := slot c p <> None.
Lemma slotB_len : forall p, slotted p -> length (slotB p) = 400%nat.
Proof.
  intros p H. unfold slotB, slotted, slot in *.
  destruct (Nat.ltb_spec 400 (length (frame (encP c p)) + 8)); [congruence|].
  rewrite app_length, repeat_length, app_length, (ok_crc c ok). lia.
Qed.
Lemma parImage_len : forall ps, Forall slotted ps -> length (parImage ps) = (length ps * 400)%nat.
Proof.
  induction 1 as [|p ps Hp _ IH]; [reflexivity|]. unfold parImage in *. cbn [map concat length].
  rewrite app_length, IH, slotB_len by exact Hp. lia.
Qed.

Lemma loadone_slot : forall pre p rest, slotted p -> (length pre mod 400 = 0)%nat ->
  loadone c (pre ++ slotB p ++ rest) (length pre / 400)%nat = Ok p.
Proof.
  intros pre p rest Hs Hm. unfold loadone.
  assert (Epos : (length pre / 400 * 400 = length pre)%nat).
  { pose proof (Nat.div_mod (length pre) 400 ltac:(lia)). lia. }
  rewrite Epos. unfold slotB, slotted, slot in *.
  destruct (Nat.ltb_spec 400 (length (frame (encP c p)) + 8)); [congruence|].
  set (u := frame (encP c p)) in *.
  assert (Hf : fits (encP c p)).
  { unfold fits. pose proof (ok_fitP c ok p). subst u. rewrite frame_len in H. lia. }
  rewrite <- !app_assoc.
  unfold u at 1. rewrite (nextframe_frame pre (encP c p) _ Hf). fold u.
  rewrite (app_assoc pre u), <- app_length, skipn_exact.
  assert (E8 : forall r, firstn 8 (crc c u ++ r) = crc c u) by (intros; apply firstn_app_exact, (ok_crc c ok)).
  rewrite E8, (ok_crc c ok). replace (8 <? 8)%nat with false by reflexivity.
  rewrite beqb_refl. cbn [negb]. rewrite (ok_P c ok). reflexivity.
Qed.
Lemma loadPars_image : forall ps pre, Forall slotted ps -> (length pre mod 400 = 0)%nat ->
  loadPars c (pre ++ parImage ps) (length pre / 400)%nat (length ps) = Ok ps.
Proof.
  induction ps as [|p ps IH]; intros pre Hf Hm; [reflexivity|].
  inversion Hf as [|? ? Hp Hps]; subst. cbn [length loadPars].
  unfold parImage. cbn [map concat]. fold (parImage ps).
  rewrite loadone_slot by assumption. cbn [bind].
  rewrite app_assoc.
  assert (El : length (pre ++ slotB p) = (length pre + 400)%nat) by (rewrite app_length, slotB_len by exact Hp; reflexivity).
  replace (S (length pre / 400)%nat) with (length (pre ++ slotB p) / 400)%nat.
  - rewrite IH; [reflexivity|assumption|]. rewrite El.
    rewrite <- (Nat.mul_1_l 400) at 1. rewrite Nat.mod_add by lia. exact Hm.
  - rewrite El. rewrite <- (Nat.mul_1_l 400) at 1. rewrite Nat.div_add by lia. lia.
Qed.
Lemma newParLog_image : forall ps, Forall slotted ps -> newParLog c (parImage ps) = Ok ps.
Proof.
  intros ps H. unfold newParLog. rewrite parImage_len by exact H.
  rewrite Nat.mod_mul, Nat.div_mul by lia. cbn [Nat.eqb negb].
  exact (loadPars_image ps [] H eq_refl).
Qed.
Lemma newParLog_torn : forall ps b, Forall slotted ps -> (0 < length b < 400)%nat -> newParLog c (parImage ps ++ b) = Panic.
Proof.
  intros ps b H Hb. unfold newParLog. rewrite app_length, parImage_len by exact H.
  rewrite Nat.add_comm, Nat.mod_add, Nat.mod_small by lia.
  destruct (length b) eqn:E; [lia|]. reflexivity.
Qed.

(** ** Opening *)

(** the entries follow each other from index [i] and term [t], and are encoded *)
Fixpoint linked (i t : Z) (log : list (entry * bytes)) : Prop :=
  match log with
  | [] => True
  | (e, b) :: r =>
      ePrevIndex e = i /\ eIndex e = i + 1 /\ ePrevTerm e = t /\ t <= eTerm e /\ b = encE c e /\ fits b /\
      linked (i + 1) (eTerm e) r
  end.
Definition terms (log : list (entry * bytes)) : list Z := map (fun x => eTerm (fst x)) log.

Lemma last_cons : forall A (l : list A) a d, last (a :: l) d = last l a.
Proof.
  induction l as [|x l IH]; intros; [reflexivity|].
  change (last (a :: x :: l) d) with (last (x :: l) d). rewrite !IH. reflexivity.
Qed.
Lemma linked_app : forall a i t b, linked i t (a ++ b) <->
  linked i t a /\ linked (i + Z.of_nat (length a)) (last (terms a) t) b.
Proof.
  induction a as [|[e x] a IH]; intros i t b; cbn [app linked length terms map].
  - cbn [last]. rewrite Z.add_0_r. tauto.
  - rewrite IH. replace (i + 1 + Z.of_nat (length a)) with (i + Z.of_nat (S (length a))) by lia.
    rewrite last_cons. cbn [fst]. fold (terms a). tauto.
Qed.

Lemma sumFits : forall pre b, fits (encS c (b3 c b, b3 c (b ++ lastEntryBytes pre))).
Proof. intros. apply (ok_fitS c ok). Qed.

Lemma loadEntry_rec : forall pre e ps log rest, fits (encE c e) ->
  loadEntry c (pre ++ recB log (encE c e) ++ rest) ps log (length pre) =
  match nth_error ps (length log) with
  | None => Panic
  | Some p => if beqb (b3 c (encE c e)) (pHash p)
              then Ok (Some (e, encE c e, length pre + length (recB log (encE c e)))%nat) else Panic
  end.
Proof.
  intros pre e ps log rest Hf. unfold loadEntry, recB. rewrite <- app_assoc.
  rewrite nextframe_frame by exact Hf. rewrite (ok_E c ok).
  rewrite app_assoc, <- app_length. unfold sumFrame at 1.
  rewrite (nextframe_frame (pre ++ frame (encE c e))) by apply sumFits.
  rewrite (ok_S c ok), !beqb_refl. cbn [negb]. rewrite !app_length. unfold sumFrame. rewrite Nat.add_assoc. reflexivity.
Qed.

Definition offsets (pos : nat) (pre log : list (entry * bytes)) : list nat :=
  map (fun k => pos + length (image pre (firstn k log)))%nat (seq 0 (length log)).
Lemma offsets_cons : forall pos pre x r,
  offsets pos pre (x :: r) = pos :: offsets (pos + length (recB pre (snd x))) (pre ++ [x]) r.
Proof.
  intros. unfold offsets. cbn [length seq map firstn image]. rewrite Nat.add_0_r. f_equal.
  rewrite <- seq_shift, map_map. apply map_ext. intros k. cbn [firstn image]. rewrite app_length. lia.
Qed.

Definition hashed (ps : list par) (from : nat) (log : list (entry * bytes)) : Prop :=
  forall j x, nth_error log j = Some x -> exists p, nth_error ps (from + j) = Some p /\ pHash p = b3 c (snd x).
Lemma hashed_parsOf : forall pre log off, hashed (parsOf off [] (pre ++ log)) (length pre) log.
Proof.
  intros pre log off j x H.
  assert (H' : nth_error (pre ++ log) (length pre + j) = Some x).
  { rewrite nth_error_app2 by lia. replace (length pre + j - length pre)%nat with j by lia. exact H. }
  destruct (parsOf_nth _ off [] _ _ H') as (o & Ho). eexists. split; [exact Ho|]. reflexivity.
Qed.

(** the state after loading [log] behind [pre] *)
Definition lastIT (i t : Z) (pre : list (entry * bytes)) : Z * Z :=
  match rev pre with [] => (i, t) | (e, _) :: _ => (eIndex e, eTerm e) end.

(** loading the image of a log whose hashes are in the parlog, behind anything *)
Lemma loadPath_image : forall log pre pos0 w fuel f head rest i0 t0 i t,
  f = head ++ image pre log ++ rest -> length head = pos0 -> raftLog w = pre ->
  linked i t log -> hashed (parlog w) (length pre) log ->
  (match pre with
   | [] => i0 = i /\ t0 = t /\ Runs (logIndex w) = [] /\ 0 <= i /\ Endi (logIndex w) = 0
   | _ => refW (logIndex w) (mkPlog i0 0 (terms pre)) /\ CompactTerm (logIndex w) <= last (terms pre) 0 /\ CompactTerm (logIndex w) = t0 /\
          lli w = i /\ prevIndexTerm pre = Some (i, t) /\ last (terms pre) 0 = t /\ llt w = t
   end) ->
  exists w', loadPath c (length log + fuel) f pos0 w = loadPath c fuel f (pos0 + length (image pre log)) w' /\
    raftLog w' = pre ++ log /\ parlog w' = parlog w /\ prevApplied w' = prevApplied w /\
    begseekpos w' = begseekpos w ++ offsets pos0 pre log /\
    (log <> [] -> refW (logIndex w') (mkPlog i0 0 (terms (pre ++ log))) /\
      CompactTerm (logIndex w') <= last (terms (pre ++ log)) 0 /\ CompactTerm (logIndex w') = t0 /\
      lli w' = i + Z.of_nat (length log) /\ llt w' = last (terms (pre ++ log)) 0) /\
    (log = [] -> w' = w).
Proof.
  induction log as [|[e b] log IH]; intros pre pos0 w fuel f head rest i0 t0 i t Ef Ehd Elog Hl Hh Hpre.
  { exists w. cbn [image length offsets seq map]. rewrite Nat.add_0_r, !app_nil_r. repeat split; auto; congruence. }
  cbn [linked] in Hl. destruct Hl as (Hpi & Hi & Hpt & Htt & -> & Hfit & Hl).
  cbn [image snd] in Ef. cbn [length plus]. cbn [loadPath]. subst pos0.
  rewrite Elog.
  pose proof (loadEntry_rec head e (parlog w) pre (image (pre ++ [(e, encE c e)]) log ++ rest) Hfit) as HL.
  rewrite <- app_assoc in Ef. rewrite <- Ef in HL. rewrite HL. clear HL.
  destruct (Hh O _ eq_refl) as (p & Hp & Hph). rewrite Nat.add_0_r in Hp. cbn [snd] in Hph.
  rewrite Hp, Hph, beqb_refl. unfold bind at 1.
  set (beg := begseekpos w ++ [length head]).
  assert (Step : exists w1, 
     (match prevIndexTerm pre with
      | None =>
          if negb (ePrevIndex e =? eIndex e - 1) then Panic
          else do x' <- AddTerm (mkRle (ePrevIndex e) (Endi (logIndex w)) (Runs (logIndex w)) (ePrevTerm e)) (eTerm e) ;
            loadPath c (length log + fuel) f (length head + length (recB pre (encE c e)))
              (mkW [(e, encE c e)] (eIndex e - 1 + 1) (eTerm e) beg (length head + length (recB pre (encE c e))) x' (parlog w) (prevApplied w))
      | Some (pi, pt) =>
          if negb (pi =? ePrevIndex e) || negb (pt =? ePrevTerm e) then Panic
          else do x' <- AddTerm (logIndex w) (eTerm e) ;
            loadPath c (length log + fuel) f (length head + length (recB pre (encE c e)))
              (mkW (pre ++ [(e, encE c e)]) (lli w + 1) (eTerm e) beg (length head + length (recB pre (encE c e))) x' (parlog w) (prevApplied w))
      end) = loadPath c (length log + fuel) f (length head + length (recB pre (encE c e))) w1 /\
     raftLog w1 = pre ++ [(e, encE c e)] /\ parlog w1 = parlog w /\ prevApplied w1 = prevApplied w /\ begseekpos w1 = beg /\
     refW (logIndex w1) (mkPlog i0 0 (terms (pre ++ [(e, encE c e)]))) /\
     CompactTerm (logIndex w1) <= eTerm e /\ CompactTerm (logIndex w1) = t0 /\ lli w1 = i + 1 /\ llt w1 = eTerm e).
  { destruct pre as [|q pre].
    - destruct Hpre as (-> & -> & Hr & Hi0 & He0). cbn [prevIndexTerm rev].
      replace (ePrevIndex e =? eIndex e - 1) with true by (symmetry; apply Z.eqb_eq; lia). cbn [negb].
      rewrite Hr, He0.
      unfold AddTerm at 1. cbn [Endi BaseC CompactTerm Runs rev Z.eqb].
      replace (eTerm e <? ePrevTerm e) with false by (symmetry; apply Z.ltb_ge; lia). unfold bind at 1.
      eexists. split; [reflexivity|]. cbn [raftLog parlog prevApplied begseekpos logIndex lli llt app CompactTerm].
      repeat split; auto; try lia; cbn [BaseC Endi Runs expand app pBase pTerms terms map pEnd]; try lia; auto.
      + repeat constructor.
      + unfold pEnd. cbn [pBase pTerms terms map length]. lia.
    - destruct Hpre as (HW & Hc & Hc0 & Hlli & Hpit & Hlt & Hllt). rewrite Hpit.
      replace (i =? ePrevIndex e) with true by (symmetry; apply Z.eqb_eq; lia).
      replace (t =? ePrevTerm e) with true by (symmetry; apply Z.eqb_eq; lia). cbn [negb orb].
      destruct (AddTerm_ok _ _ (eTerm e) HW ltac:(lia)) as (x' & Hx & HW' & Hc').
      { cbn [pTerms]. rewrite <- Htt, <- Hlt. cbn [terms map]. rewrite !last_cons. lia. }
      rewrite Hx. unfold bind at 1. eexists. split; [reflexivity|]. cbn [raftLog parlog prevApplied begseekpos logIndex lli llt].
      repeat split; auto; try lia.
      all: try (destruct HW'; cbn [pBase pTerms pstep pBaseTerm] in *; assumption).
      + destruct HW'. cbn [pstep pTerms pBase pBaseTerm] in *. unfold terms. rewrite map_app. exact rw_exp.
      + destruct HW'. unfold pEnd in *. cbn [pstep pTerms pBase pBaseTerm] in *. unfold terms in *. rewrite map_app. exact rw_endi. }
  destruct Step as (w1 & Es & S1 & S2 & S3 & S4 & S5 & S6 & S60 & S7 & S8).
  rewrite Es. clear Es.
  assert (Eq1 : lastIT 0 0 (pre ++ [(e, encE c e)]) = (eIndex e, eTerm e)) by (unfold lastIT; rewrite rev_app_distr; reflexivity).
  assert (HlastT : last (terms (pre ++ [(e, encE c e)])) 0 = eTerm e) by (unfold terms; rewrite map_app; apply last_last).
  specialize (IH (pre ++ [(e, encE c e)]) (length head + length (recB pre (encE c e)))%nat w1 fuel f
                (head ++ recB pre (encE c e)) rest i0 t0 (i + 1) (eTerm e)).
  destruct IH as (w' & I1 & I2 & I3 & I4 & I5 & I6 & I7).
  - rewrite Ef, <- !app_assoc. reflexivity.
  - apply app_length.
  - exact S1.
  - exact Hl.
  - rewrite S2. intros j x Hj. destruct (Hh (S j) x Hj) as (p' & A & B). exists p'. split; [|exact B].
    rewrite app_length. cbn [length]. rewrite <- A. f_equal. lia.
  - destruct (pre ++ [(e, encE c e)]) eqn:En; [destruct pre; discriminate|]. rewrite <- En in *.
    split; [exact S5|]. split; [rewrite HlastT; exact S6|]. split; [exact S60|]. split; [exact S7|]. split; [|split; [exact HlastT|exact S8]].
    unfold prevIndexTerm. rewrite rev_app_distr. cbn. rewrite Hi. reflexivity.
  - exists w'. split; [rewrite I1; f_equal; cbn [image snd]; rewrite app_length; lia|].
    split; [rewrite I2, <- app_assoc; reflexivity|]. split; [congruence|]. split; [congruence|].
    split. { rewrite I5, S4. unfold beg. rewrite <- app_assoc. cbn [app]. rewrite offsets_cons. reflexivity. }
    split; [|discriminate]. intros _.
    destruct log as [|y log].
    + rewrite (I7 eq_refl). rewrite <- app_assoc in *. cbn [app length] in *.
      split; [exact S5|]. split; [rewrite HlastT; exact S6|]. split; [exact S60|]. split; [lia|]. congruence.
    + destruct (I6 ltac:(discriminate)) as (J1 & J2 & J20 & J3 & J4). rewrite <- app_assoc in *. cbn [app] in *.
      split; [exact J1|]. split; [exact J2|]. split; [exact J20|]. split; [|exact J4]. rewrite J3. cbn [length]. lia.
Qed.
End W.
