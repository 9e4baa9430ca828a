(** Crashes: what a log opens to after a crash at any point of a call. *)
From Coq Require Import List ZArith Lia Bool.
From Verif Require Import Base Rle_Model Rle_Spec Rle_Proofs Wal_Model Wal_Spec Wal_Proofs Wal_Proofs2 Wal_Proofs3.
Import ListNotations.
Open Scope Z_scope.

Lemma survives_refl : forall low f, survives low f f.
Proof. intros [m|] f; reflexivity. Qed.
Lemma surv_none : forall d f, survives None (dWal d) f -> mkD f (dPar d) = d.
Proof. intros [g p] f H. cbn in *. subst. reflexivity. Qed.
(** a killed process is a special case of a power loss *)
Lemma killed_powerLoss : forall ops d d', killed ops d d' -> forall low, powerLoss ops low d d'.
Proof.
  intros ops d d' H. induction H; intros low.
  - destruct d as [f p]. apply (pl_now _ _ (mkD f p)). apply survives_refl.
  - destruct o.
    + apply pl_write. apply IHkilled.
    + apply pl_trunc. apply IHkilled.
    + apply pl_sync. apply IHkilled.
    + apply pl_new. apply IHkilled.
    + apply pl_par; [exact I|]. apply IHkilled.
    + apply pl_par; [exact I|]. apply IHkilled.
    + apply pl_par; [exact I|]. apply IHkilled.
    + apply pl_par; [exact I|]. apply IHkilled.
    + apply pl_par; [exact I|]. apply IHkilled.
  - apply pl_write.
    refine (pl_now _ _ (apply (WWrite pos b) d) _ _). cbn [apply dWal].
    assert (E : forall m b', (m <= pos)%nat -> firstn m (writeAt pos b' (dWal d)) = firstn m (pad pos (dWal d))).
    { intros m b' Hm. unfold writeAt. rewrite firstn_app.
      assert (Hl : length (pad pos (dWal d)) = pos).
      { unfold pad. rewrite app_length, firstn_length, repeat_length. lia. }
      rewrite Hl. replace (m - pos)%nat with O by lia. cbn [firstn]. apply app_nil_r. }
    unfold survives, lower. destruct low as [m|]; rewrite !E by lia; reflexivity.
  - apply (pl_torn pos b n ops low d (dWal d)). apply survives_refl.
Qed.

(** splitting a power loss; no rename in the first part *)
Definition noNew (ops : list op) : Prop := Forall (fun o => match o with WNew _ | PNew _ => False | _ => True end) ops.
Fixpoint lowAfter (ops : list op) (low : option nat) : option nat :=
  match ops with
  | [] => low
  | WWrite m _ :: r | WTrunc m :: r => lowAfter r (lower m low)
  | WSync :: r => lowAfter r None
  | _ :: r => lowAfter r low
  end.
Lemma powerLoss_app : forall a b low d d', noNew a -> powerLoss (a ++ b) low d d' ->
  powerLoss a low d d' \/ powerLoss b (lowAfter a low) (applyAll a d) d'.
Proof.
  induction a as [|o a IH]; intros b low d d' Hn H; [right; exact H|].
  inversion Hn as [|? ? Ho Ha]; subst. cbn [app] in H.
  inversion H; subst.
  - left. apply pl_now. assumption.
  - destruct (IH _ _ _ _ Ha ltac:(eassumption)) as [X|X]; [left; apply pl_write; exact X|right; exact X].
  - destruct (IH _ _ _ _ Ha ltac:(eassumption)) as [X|X]; [left; apply pl_trunc; exact X|right; exact X].
  - destruct (IH _ _ _ _ Ha ltac:(eassumption)) as [X|X]; [left; apply pl_sync; exact X|right; exact X].
  - destruct (IH _ _ _ _ Ha ltac:(eassumption)) as [X|X]; [left; apply pl_par; assumption|right].
    destruct o; try contradiction; exact X.
  - left. apply pl_torn. assumption.
  - contradiction.
  - contradiction.
Qed.

Lemma writeAt_prefix : forall p jj bb m, (length p <= m)%nat -> exists junk, writeAt m bb (p ++ jj) = p ++ junk.
Proof.
  intros p jj bb m H. unfold writeAt, pad. rewrite firstn_app, (firstn_all2 p) by lia. rewrite <- !app_assoc. eauto.
Qed.

Section W.
Context (c : codec) (ok : codec_ok c).
Notation image := (image c).
Notation parsOf := (parsOf c).
Notation parImage := (parImage c).
Notation linked := (linked c).
Notation slotted := (slotted c).
Notation goodJ := (goodJ c).
Notation good := (good c).
Notation raw := (raw c).

(** ** A parlog, and a file that begins with part of its log *)

Lemma nth_error_eqs : forall A (a b : list A), (forall j x, nth_error a j = Some x -> nth_error b j = Some x) ->
  a = firstn (length a) b.
Proof.
  induction a as [|x a IH]; intros b H; [reflexivity|].
  pose proof (H O x eq_refl) as H0. destruct b as [|y b]; [discriminate|]. injection H0 as ->.
  cbn [length firstn]. f_equal. apply IH. intros j z Hz. exact (H (S j) z Hz).
Qed.

Lemma loadEntry_none : forall f ps log pos, loadEntry c f ps log pos = Ok None -> (length f <= pos)%nat.
Proof.
  intros f ps log pos H. unfold loadEntry in H.
  destruct (nextframe f pos) as [| |b raw p1] eqn:E; try discriminate.
  - unfold nextframe in E. destruct (length (skipn pos f)) eqn:El; [rewrite skipn_length in El; lia|]. rewrite <- El in E.
    destruct (_ <? 5)%nat; [discriminate|]. destruct (unframe _) as [[t h]|]; [|discriminate]. destruct (_ <? _)%nat; discriminate.
  - destruct (decE c b); [|discriminate]. destruct (nextframe f p1) as [| |? ? ?]; try discriminate.
    destruct (decS c _) as [[? ?]|]; [|discriminate]. destruct (negb _); [discriminate|]. destruct (negb _); [discriminate|].
    destruct (nth_error _ _); [|discriminate]. destruct (beqb _ _); discriminate.
Qed.
Lemma open_damaged : forall pre more d w' i t, linked i t (pre ++ more) -> 0 <= i ->
  Forall slotted (parsOf 0 [] (pre ++ more)) -> dPar d = parImage (parsOf 0 [] (pre ++ more)) ->
  (exists junk, dWal d = image [] pre ++ junk) -> noCollision c (dWal d) (map fst (pre ++ more)) ->
  openWal c d = Ok w' ->
  exists n, (length pre <= n)%nat /\ raftLog w' = firstn n (pre ++ more) /\ parlog w' = parsOf 0 [] (pre ++ more) /\
    (dWal d <> [] -> raftLog w' <> []).
Proof.
  intros pre more d w' i t Hl Hi Hs Ep (junk & Ew) Hnc H. unfold openWal in H.
  rewrite Ep, (newParLog_image c ok) in H by exact Hs. cbn [bind] in H.
  set (ps := parsOf 0 [] (pre ++ more)) in *.
  assert (Hlp : linked i t pre) by (apply linked_app in Hl; apply Hl).
  destruct (dWal d) as [|z f] eqn:Ed.
  - injection H as <-. exists O. split; [|split; [reflexivity|split; [reflexivity|congruence]]].
    destruct pre as [|x pre']; [reflexivity|]. exfalso.
    symmetry in Ew. apply app_eq_nil in Ew as [Ew _]. refine (image_ne c ok _ _ _ _ Hlp Ew). discriminate.
  - rewrite Ew in H.
    destruct (load_prefix c ok pre junk (fresh ps) i t Hlp Hi) as (w1 & A1 & A2 & A3 & _).
    { intros j x Hx. destruct (parsOf_nth c (pre ++ more) 0 [] j x) as (off & Ho).
      { rewrite nth_error_app1; [exact Hx|]. apply nth_error_Some. congruence. }
      eexists. split; [exact Ho|]. reflexivity. }
    { repeat split. }
    pose proof (f_equal (fun x => x) H) as HH. rewrite A1 in H.
    pose proof (loadPath_any c _ _ _ _ _ H) as (B1 & more' & B2 & B3).
    pose proof (loadPath_any c _ _ _ _ _ HH) as (C1 & all & C2 & C3). cbn [fresh raftLog parlog app length Nat.add] in C1, C2, C3.
    rewrite A2 in B2.
    exists (length (raftLog w')). split; [rewrite B2, app_length; lia|]. split; [|split; [exact C1|]].
    + apply nth_error_eqs. intros j x Hx. rewrite C2 in Hx. destruct (C3 j x Hx) as (P1 & P2 & p & P3 & P4).
      assert (Hj : (j < length (pre ++ more))%nat).
      { rewrite <- (parsOf_len c (pre ++ more) 0 []). apply nth_error_Some. unfold ps in P3. congruence. }
      destruct (nth_error (pre ++ more) j) as [y|] eqn:Ey; [|apply nth_error_None in Ey; lia].
      destruct (parsOf_nth c _ 0 [] _ _ Ey) as (off & Ho). unfold ps in P3. rewrite Ho in P3. injection P3 as <-.
      cbn [parOf pHash] in P4.
      assert (Hy : snd y = encE c (fst y)).
      { pose proof (linked_raw c _ _ _ Hl) as Hr. apply nth_error_In in Ey. rewrite Hr in Ey.
        unfold Wal_Proofs2.raw in Ey. rewrite map_map in Ey. apply in_map_iff in Ey as (z0 & <- & _). reflexivity. }
      assert (Hb : snd x = snd y).
      { rewrite Hy. apply (Hnc (fst y)).
        - apply in_map. apply nth_error_In in Ey. exact Ey.
        - rewrite Ew. exact P1.
        - rewrite <- P4, Hy. reflexivity. }
      assert (fst x = fst y).
      { rewrite Hb, Hy, (ok_E c ok) in P2. congruence. }
      destruct x, y. cbn [fst snd] in *. congruence.
    + intros _ Hnil. clear -HH Hnil Ew Ed. rewrite <- Ew in HH.
      remember (length (z :: f)) as nn eqn:Enn. clear Enn. cbn [loadPath] in HH.
      destruct (loadEntry c (z :: f) (parlog (fresh ps)) (raftLog (fresh ps)) 0) as [[[[e b] p']|]|] eqn:El; unfold bind at 1 in HH; try discriminate.
      * cbn [fresh raftLog prevIndexTerm rev] in HH. destruct (negb _); [discriminate|].
        destruct (AddTerm _ _); unfold bind at 1 in HH; [|discriminate].
        destruct (loadPath_any c _ _ _ _ _ HH) as (_ & m & Em & _). rewrite Hnil in Em. discriminate.
      * apply loadEntry_none in El. cbn [length] in El. lia.
Qed.

(** no hash is needed when the parlog has nothing more than the log in the file *)
Lemma open_exact : forall log d w' i t junk, linked i t log -> 0 <= i -> 0 <= t ->
  Forall slotted (parsOf 0 [] log) -> dPar d = parImage (parsOf 0 [] log) -> dWal d = image [] log ++ junk ->
  openWal c d = Ok w' -> junk = [] /\ raftLog w' = log.
Proof.
  intros log d w' i t junk Hl Hi Ht Hs Ep Ew H.
  destruct junk as [|z junk].
  - split; [reflexivity|]. rewrite app_nil_r in Ew. destruct log as [|x log].
    + unfold openWal in H. rewrite Ep in H. cbn in Ew. rewrite Ew in H. cbn in H. injection H as <-. reflexivity.
    + destruct (open_good c ok (x :: log) d i t ltac:(discriminate) Hl Hi Ht Hs Ew Ep) as (w'' & A & _ & B & _).
      rewrite A in H. injection H as <-. exact B.
  - exfalso. unfold openWal in H. rewrite Ep, (newParLog_image c ok) in H by exact Hs. cbn [bind] in H.
    assert (Hne : dWal d <> []). { rewrite Ew. intro X. apply app_eq_nil in X as [_ X]. discriminate. }
    rewrite Ew in *. set (g := image [] log ++ z :: junk) in *.
    assert (H' : loadPath c (S (length g)) g 0 (fresh (parsOf 0 [] log)) = Ok w').
    { destruct g; [congruence|]. exact H. }
    clear H. unfold g in H'.
    destruct (load_prefix c ok log (z :: junk) (fresh (parsOf 0 [] log)) i t Hl Hi) as (w1 & A1 & A2 & A3 & _).
    { exact (hashed_parsOf c [] log 0). } { repeat split. }
    rewrite A1 in H'. cbn [loadPath] in H'.
    rewrite (loadEntry_nopar c) in H'.
    + discriminate.
    + rewrite app_length. cbn [length]. lia.
    + rewrite A2, A3. cbn [fresh parlog]. apply nth_error_None. rewrite parsOf_len. lia.
Qed.

Lemma open_torn : forall ps d b, Forall slotted ps -> (0 < length b < 400)%nat -> dPar d = parImage ps ++ b -> openWal c d = Panic.
Proof. intros ps d b Hs Hb E. unfold openWal. rewrite E, (newParLog_torn c ok) by assumption. reflexivity. Qed.

(** ** Saving one entry *)

Definition lowOk (pre : list (entry * bytes)) (low : option nat) : Prop :=
  match low with None => True | Some m => (length (image [] pre) <= m)%nat end.

Lemma survives_prefix : forall pre low f f' junk, lowOk pre low -> f = image [] pre ++ junk -> survives low f f' ->
  exists junk', f' = image [] pre ++ junk'.
Proof.
  intros pre low f f' junk Hl -> Hs. destruct low as [m|]; cbn [survives lowOk] in *.
  - exists (skipn (length (image [] pre)) f'). rewrite <- (firstn_skipn (length (image [] pre)) f') at 1. f_equal.
    transitivity (firstn (length (image [] pre)) (firstn m f')).
    + rewrite firstn_firstn, Nat.min_l by lia. reflexivity.
    + rewrite Hs, firstn_firstn, Nat.min_l by lia. apply firstn_exact.
  - exists junk. exact Hs.
Qed.

Lemma slot_len : forall p sl, slot c p = Some sl -> length sl = 400%nat.
Proof.
  intros p sl H. pose proof (slotB_len c ok p) as X. unfold slotB, Wal_Proofs.slotted in X. rewrite H in X. apply X. discriminate.
Qed.
Lemma par_write : forall w d j n sl, goodJ w d j ->
  writeAt (length (parlog w) * 400) (firstn n sl) (dPar d) = parImage (parlog w) ++ firstn n sl.
Proof.
  intros w d j n sl G. rewrite (g_par _ _ _ _ G), <- (parImage_len c ok _ (g_slot _ _ _ _ G)).
  pose proof (writeAt_exact (parImage (parlog w)) (firstn n sl) []) as X. rewrite skipn_nil, !app_nil_r in X. exact X.
Qed.

(** the disk after a crash while the entries after [pre] are written *)
Definition crashed (pre more : list (entry * bytes)) (d' : disk) : Prop :=
  (exists junk, dWal d' = image [] pre ++ junk) /\
  (exists torn, dPar d' = parImage (parsOf 0 [] (pre ++ more)) ++ torn /\ (length torn < 400)%nat).

Lemma saveEntry_crash : forall sync pre more w d j low e tail d' ops r, goodJ w d j -> raftLog w = pre ++ more -> lowOk pre low ->
  fits (encE c (stamp (content w) e)) ->
  saveEntry c sync e w = (ops, r) -> powerLoss (ops ++ match r with Ok _ => tail | Panic => [] end) low d d' ->
  crashed pre more d' \/
  exists w' low', r = Ok w' /\ lowOk pre low' /\ (sync = true -> low' = None) /\ powerLoss tail low' (applyAll ops d) d'.
Proof.
  intros sync pre more w d j low e tail d' ops r G El Hlow Hfit H Hp.
  assert (Hpre : exists junk, dWal d = image [] pre ++ junk).
  { rewrite (g_wal _ _ _ _ G), El, image_app, <- app_assoc. eauto. }
  assert (Hpar : dPar d = parImage (parsOf 0 [] (pre ++ more)) ++ []).
  { rewrite (g_par _ _ _ _ G), (g_pars _ _ _ _ G), El, app_nil_r. reflexivity. }
  assert (Now : forall f, (exists junk, f = image [] pre ++ junk) -> crashed pre more (mkD f (dPar d))).
  { intros f Hf. split; [exact Hf|]. exists []. split; [exact Hpar|cbn; lia]. }
  destruct (saveEntry_cases c _ _ _ _ _ _ _ G H) as [[-> ->]|(_ & _ & _ & Hc)].
  { cbn [app] in Hp. left. inversion Hp; subst. apply Now. destruct Hpre as (jj & Hj). eapply survives_prefix; eassumption. }
  assert (Hfd : (length (image [] pre) <= fdpos w)%nat).
  { rewrite (g_pos _ _ _ _ G), El, image_app, app_length. lia. }
  assert (Hlow1 : forall m l, (length (image [] pre) <= m)%nat -> lowOk pre l -> lowOk pre (lower m l)).
  { intros m [l|] Hm Hl; cbn [lower lowOk] in *; lia. }
  pose proof (saveOps_apply c _ _ _ e sync G) as Hap.
  (* the operations on the log file *)
  assert (Step : forall rest, powerLoss (saveOps c sync w e ++ rest) low d d' ->
     crashed pre more d' \/ exists low', lowOk pre low' /\ (sync = true -> low' = None) /\ powerLoss rest low' (applyAll (saveOps c sync w e) d) d').
  { intros rest Hr.
    assert (HN : noNew (saveOps c sync w e)).
    { unfold saveOps, noNew. repeat constructor. destruct sync; repeat constructor. }
    apply powerLoss_app in Hr; [|exact HN]. destruct Hr as [Hr|Hr].
    - left. clear Hap HN. unfold saveOps in Hr. set (b := encE c (stamp (content w) e)) in *.
      assert (W1 : forall f, (exists junk, f = image [] pre ++ junk) -> forall bb m, (length (image [] pre) <= m)%nat ->
                exists junk, writeAt m bb f = image [] pre ++ junk).
      { intros f (jj & ->) bb m Hm. apply writeAt_prefix. exact Hm. }
      cbn [app] in Hr. destruct Hpre as (jj & Hj).
      inversion Hr; subst.
      { apply Now. eapply survives_prefix; eassumption. }
      2: contradiction.
      match goal with X : powerLoss _ (lower _ _) _ d' |- _ => rename X into Hr1 end.
      assert (P1 : exists junk, dWal (apply (WWrite (fdpos w) (frame b)) d) = image [] pre ++ junk).
      { cbn [apply dWal]. apply W1; [eauto|exact Hfd]. }
      inversion Hr1; subst.
      { destruct P1 as (j1 & P1). change (dPar (apply (WWrite (fdpos w) (frame b)) d)) with (dPar d). apply Now.
        eapply survives_prefix; [|exact P1|eassumption]. apply Hlow1; assumption. }
      2: contradiction.
      match goal with X : powerLoss (if sync then _ else _) _ _ d' |- _ => rename X into Hr2 end.
      assert (P2 : exists junk, dWal (apply (WWrite (fdpos w + length (frame b)) (sumFrame c (raftLog w) b)) (apply (WWrite (fdpos w) (frame b)) d)) = image [] pre ++ junk).
      { cbn [apply dWal] in *. apply W1; [exact P1|lia]. }
      assert (L2 : lowOk pre (lower (fdpos w + length (frame b)) (lower (fdpos w) low))).
      { apply Hlow1; [lia|]. apply Hlow1; assumption. }
      destruct P2 as (j2 & P2).
      set (d2 := apply (WWrite (fdpos w + length (frame b)) (sumFrame c (raftLog w) b)) (apply (WWrite (fdpos w) (frame b)) d)) in *.
      assert (E2 : dPar d2 = dPar d) by reflexivity.
      assert (Fin : forall f low', lowOk pre low' -> survives low' (dWal d2) f -> crashed pre more (mkD f (dPar d2))).
      { intros f low' Hl' Hs'. rewrite E2. apply Now. eapply survives_prefix; eassumption. }
      destruct sync; inversion Hr2; subst; try (eapply Fin; eassumption); try contradiction.
      match goal with X : powerLoss [] None _ d' |- _ => inversion X; subst end. eapply Fin; [|eassumption]. exact I.
    - right. exists (lowAfter (saveOps c sync w e) low). split; [|split; [intros ->; reflexivity|exact Hr]].
      unfold saveOps. cbn [app lowAfter]. destruct sync; cbn [lowAfter]; [exact I|]. apply Hlow1; [lia|]. apply Hlow1; assumption. }
  assert (Hpre2 : exists junk, dWal (applyAll (saveOps c sync w e) d) = image [] pre ++ junk).
  { rewrite Hap, El, image_app. cbn [dWal app]. rewrite <- app_assoc. eauto. }
  assert (Epar2 : dPar (applyAll (saveOps c sync w e) d) = dPar d) by (rewrite Hap; reflexivity).
  destruct Hc as [(-> & -> & _)|(w' & sl & Hsl & -> & -> & Hrest)].
  - destruct (Step [] Hp) as [|(low' & Hl' & Hsy & Hq)]; [auto|]. left. inversion Hq; subst. rewrite Epar2. apply Now.
    destruct Hpre2 as (jj & Hj). eapply survives_prefix; eassumption.
  - rewrite <- app_assoc in Hp. destruct (Step _ Hp) as [|(low' & Hl' & Hsy & Hq)]; [auto|].
    destruct Hpre2 as (jj & Hj). cbn [app] in Hq. inversion Hq; subst; try contradiction.
    + left. rewrite Epar2. apply Now. eapply survives_prefix; eassumption.
    + right. exists w'. match goal with X : powerLoss (PSync :: tail) _ _ d' |- _ => rename X into Hq1 end.
      inversion Hq1; subst; try contradiction.
      * exists low'. split; [reflexivity|]. split; [exact Hl'|]. split; [exact Hsy|]. rewrite applyAll_app. unfold applyAll at 1. cbn [fold_left].
        apply (pl_now tail low' (apply PSync (apply (PWrite _ _) (applyAll (saveOps c sync w e) d)))). assumption.
      * exists low'. split; [reflexivity|]. split; [exact Hl'|]. split; [exact Hsy|]. rewrite applyAll_app. assumption.
    + match goal with |- context [firstn ?n sl] => rename n into nn end.
      match goal with X : survives low' _ _ |- _ => rename X into Hsv end.
      destruct (survives_prefix _ _ _ _ _ Hl' Hj Hsv) as (j' & Hj').
      rewrite Epar2, (par_write _ _ _ _ _ G).
      destruct (Nat.lt_ge_cases nn 400) as [Hlt|Hge].
      * left. split; [exists j'; exact Hj'|]. exists (firstn nn sl). split.
        -- cbn [dPar]. rewrite (g_pars _ _ _ _ G), El. reflexivity.
        -- rewrite firstn_length, (slot_len _ _ Hsl). lia.
      * right. exists w', low'. split; [reflexivity|]. split; [exact Hl'|]. split; [exact Hsy|]. rewrite applyAll_app.
        rewrite firstn_all2 by (rewrite (slot_len _ _ Hsl); lia).
        assert (Ed : applyAll [PWrite (length (parlog w) * 400) sl; PSync] (applyAll (saveOps c sync w e) d)
                 = mkD (dWal (applyAll (saveOps c sync w e) d)) (parImage (parlog w) ++ sl)).
        { change (applyAll [PWrite (length (parlog w) * 400) sl; PSync] (applyAll (saveOps c sync w e) d)) with
            (mkD (dWal (applyAll (saveOps c sync w e) d)) (writeAt (length (parlog w) * 400) sl (dPar (applyAll (saveOps c sync w e) d)))).
          rewrite Epar2. pose proof (par_write _ _ _ 400 sl G) as X. rewrite firstn_all2 in X by (rewrite (slot_len _ _ Hsl); lia).
          rewrite X. reflexivity. }
        rewrite Ed. apply (pl_now tail low' (mkD (dWal (applyAll (saveOps c sync w e) d)) (parImage (parlog w) ++ sl))). exact Hsv.
Qed.

(** ** Saving a batch *)

(** a state whose log was being extended *)
Definition between (pre : list (entry * bytes)) (s : plain) (d' : disk) : Prop :=
  exists w d j more, goodJ w d j /\ content w = s /\ raftLog w = pre ++ more /\ crashed pre more d'.

Lemma saveAll_crash : forall es pre more w d j low tail d' ops r, goodJ w d j -> raftLog w = pre ++ more -> lowOk pre low ->
  okAll c (content w) es -> saveAll c es w = (ops, r) ->
  powerLoss (ops ++ match r with Ok _ => tail | Panic => [] end) low d d' ->
  (exists n, between pre (sAppendAll (content w) (firstn n es)) d') \/
  exists w' low', r = Ok w' /\ lowOk pre low' /\ powerLoss tail low' (applyAll ops d) d'.
Proof.
  induction es as [|e es IH]; intros pre more w d j low tail d' ops r G El Hlow Hok H Hp; cbn [saveAll] in H.
  - injection H as <- <-. right. exists w, low. auto.
  - cbn [okAll] in Hok. destruct Hok as [He Hes]. unfold bindM in H.
    destruct (saveEntry c false e w) as [o1 r1] eqn:E1. cbn [fst snd] in H.
    destruct r1 as [w1|].
    + destruct (saveAll c es w1) as [o2 r2] eqn:E2. cbn [fst snd] in H. injection H as <- <-.
      rewrite <- app_assoc in Hp.
      destruct (saveEntry_crash false pre more w d j low e (o2 ++ match r2 with Ok _ => tail | Panic => [] end) d' o1 (Ok w1) G El Hlow He E1 Hp) as [X|(w' & low' & Ew & Hl' & _ & Hp')].
      * left. exists O. exists w, d, j, more. cbn [firstn sAppendAll fold_left]. auto.
      * injection Ew as <-.
        destruct (saveEntry_good c ok _ _ _ _ _ _ _ G He E1) as (G1 & L1 & C1).
        destruct (saveEntry_cases c _ _ _ _ _ _ _ G E1) as [[_ X]|(_ & _ & _ & [(_ & X & _)|(w'' & sl & _ & _ & Hw & D1 & _)])]; try discriminate.
        injection Hw as <-. rewrite El, <- app_assoc in D1. rewrite <- C1 in Hes.
        destruct (IH pre _ w1 _ _ low' tail d' o2 r2 G1 D1 Hl' Hes E2 Hp') as [(n & X)|X].
        -- left. exists (S n). cbn [firstn]. rewrite C1 in X. exact X.
        -- right. rewrite applyAll_app. exact X.
    + injection H as <- <-.
      destruct (saveEntry_crash false pre more w d j low e tail d' o1 Panic G El Hlow He E1 Hp) as [X|(w' & low' & Ew & _)]; [|discriminate].
      left. exists O. exists w, d, j, more. cbn [firstn sAppendAll fold_left]. auto.
Qed.

Lemma pl_end : forall low d d', powerLoss [] low d d' -> dPar d' = dPar d /\ survives low (dWal d) (dWal d').
Proof. intros low d d' H. inversion H; subst. auto. Qed.
Lemma pl_final : forall d d', powerLoss [] None d d' -> d' = d.
Proof. intros d d' H. apply pl_end in H as [A B]. cbn in B. destruct d, d'. cbn in *. congruence. Qed.

Definition keptLog (w : wal) (i : Z) : list (entry * bytes) := firstn (kept w i) (raftLog w).

Lemma sAppendAll_base : forall l s, sBase (sAppendAll s l) = sBase s.
Proof. induction l as [|e l IH]; intros s; [reflexivity|]. unfold sAppendAll in *. cbn [fold_left]. rewrite IH. reflexivity. Qed.

Lemma rewrite_crash : forall cfg w d lim i k kc oc es commit ops r tail d', good w d -> limOk c lim w ->
  okAll c (sKeep (content w) i) es ->
  ((kept w i < length (raftLog w))%nat -> within lim (kept w i) /\ kc = kept w i /\ k = BaseC (logIndex w) + Z.of_nat (kept w i)) ->
  oc = (length (raftLog w) - kept w i)%nat ->
  rewrite c cfg k kc oc es commit w = (ops, r) ->
  powerLoss (ops ++ match r with Ok _ => tail | Panic => [] end) None d d' ->
  d' = d \/
  (exists n s, between (keptLog w i) s d' /\ sLog s = sLog (sAppendAll (sKeep (content w) i) (firstn n es))) \/
  exists w', r = Ok w' /\ powerLoss tail None (applyAll ops d) d'.
Proof.
  intros cfg w d lim i k kc oc es commit ops r tail d' GG HL Hes Hlt Eoc H Hp. pose proof GG as [G L].
  assert (NN : forall x, powerLoss [] None d x -> x = d) by (intros x; apply pl_final).
  unfold rewrite in H.
  (* the part after the cut *)
  assert (Rest : forall w1 d1 j ocb (o : list op) r0 low, goodJ w1 d1 j -> raftLog w1 = keptLog w i -> content w1 = sKeep (content w) i -> lowOk (keptLog w i) low ->
     bindM (saveAll c es w1) (fun w2 => bindM (emit ((if ocb && (fdpos w2 <? fdpos w)%nat then [WTrunc (fdpos w2)] else []) ++ [WSync])) (fun _ => ret w2)) = (o, r0) ->
     powerLoss (o ++ match r0 with Ok _ => tail | Panic => [] end) low d1 d' ->
     (exists n s, between (keptLog w i) s d' /\ sLog s = sLog (sAppendAll (sKeep (content w) i) (firstn n es))) \/
     exists w', r0 = Ok w' /\ powerLoss tail None (applyAll o d1) d').
  { clear H Hp. intros w1 d1 j ocb o r0 low G1 R1 EK Hlow H Hp. unfold bindM in H.
    destruct (saveAll c es w1) as [o2 r2] eqn:E2. cbn [fst snd] in H. rewrite <- EK in Hes.
    destruct r2 as [w2|].
    2: { injection H as <- <-. destruct (saveAll_crash es (keptLog w i) [] w1 d1 j low [] d' o2 Panic G1) as [(n & X)|(w' & _ & X & _)]; auto; try discriminate.
         { rewrite app_nil_r. exact R1. }
         left. exists n, (sAppendAll (content w1) (firstn n es)). rewrite EK in *. auto. }
    set (fin := (if ocb && (fdpos w2 <? fdpos w)%nat then [WTrunc (fdpos w2)] else []) ++ [WSync]) in *.
    cbn [emit ret fst snd app] in H. rewrite app_nil_r in H. injection H as <- <-. rewrite <- app_assoc in Hp.
    destruct (saveAll_crash es (keptLog w i) [] w1 d1 j low (fin ++ tail) d' o2 (Ok w2) G1) as [(n & X)|(w' & low' & Ew & Hl' & Hp')]; auto.
    { rewrite app_nil_r. exact R1. }
    { left. exists n, (sAppendAll (content w1) (firstn n es)). rewrite EK in *. auto. }
    injection Ew as <-.
    destruct (saveAll_good c ok _ _ _ _ _ _ G1 Hes E2) as (m & A1 & A2 & _ & _ & A5 & _ & log & A7 & _).
    assert (Hfull : forall f, (exists junk, f = image [] (keptLog w i) ++ junk) ->
      exists n s, between (keptLog w i) s (mkD f (dPar (applyAll o2 d1))) /\ sLog s = sLog (sAppendAll (sKeep (content w) i) (firstn n es))).
    { intros f Hf. exists (length es), (sAppendAll (content w1) es). split; [|rewrite firstn_all, EK; reflexivity].
      exists w2, (applyAll o2 d1), (skipn m j), log. split; [exact A1|]. split; [exact A2|]. split; [rewrite A7, R1; reflexivity|].
      split; [exact Hf|]. exists []. rewrite app_nil_r. split; [|cbn; lia]. cbn [dPar].
      rewrite (g_par _ _ _ _ A1), (g_pars _ _ _ _ A1), A7, R1. reflexivity. }
    assert (Hpre : exists junk, dWal (applyAll o2 d1) = image [] (keptLog w i) ++ junk).
    { rewrite (g_wal _ _ _ _ A1), A7, R1, image_app, <- app_assoc. eauto. }
    rewrite applyAll_app. set (d2 := applyAll o2 d1) in *. destruct Hpre as (jj & Hj).
    assert (Hfd : (length (image [] (keptLog w i)) <= fdpos w2)%nat).
    { rewrite (g_pos _ _ _ _ A1), A7, R1, image_app, app_length. lia. }
    unfold fin in *. destruct (ocb && (fdpos w2 <? fdpos w)%nat); cbn [app] in Hp' |- *.
    - inversion Hp'; subst; try contradiction.
      { left. apply Hfull. eapply survives_prefix; eassumption. }
      match goal with X : powerLoss (WSync :: tail) _ _ d' |- _ => inversion X; subst; try contradiction end.
      + left. cbn [apply dPar]. apply Hfull.
        match goal with X : survives _ _ _ |- _ => cbn [apply dWal] in X; rename X into Hsv end.
        assert (exists junk, pad (fdpos w2) (dWal d2) = image [] (keptLog w i) ++ junk) as (j2 & Hj2).
        { rewrite Hj. unfold pad. rewrite firstn_app, (firstn_all2 (image _ _)) by lia. rewrite <- !app_assoc. eauto. }
        eapply survives_prefix; [|exact Hj2|exact Hsv]. destruct low'; cbn [lower lowOk] in *; lia.
      + right. exists w2. auto.
    - inversion Hp'; subst; try contradiction.
      { left. apply Hfull. eapply survives_prefix; eassumption. }
      right. exists w2. auto. }
  destruct (Nat.ltb_spec (kept w i) (length (raftLog w))) as [Hk|Hk].
  - destruct (Hlt Hk) as (Hwi & -> & ->). destruct (lim_seek c lim w _ HL Hwi Hk) as [Hs1 Hs2]. subst oc.
    assert (Hoc : (length (raftLog w) - kept w i =? 0)%nat = false) by (apply Nat.eqb_neq; lia). rewrite Hoc in *. cbn [negb andb] in H.
    destruct (cut cfg (BaseC (logIndex w) + Z.of_nat (kept w i)) (kept w i) (length (raftLog w) - kept w i) es commit w) as [oc rc] eqn:Ec.
    destruct rc as [w1|].
    2: { unfold bindM in H. cbn [fst snd] in H. injection H as <- <-. rewrite app_nil_r in Hp.
         unfold cut in Ec. rewrite Hs1 in Ec. left.
         destruct (negb (length es =? 0)%nat); cbn [check ret fail bindM fst snd app] in Ec; [|injection Ec as <-; auto].
         destruct (negb _ || _); cbn [check ret fail bindM fst snd app] in Ec; [|injection Ec as <-; auto].
         destruct (kept w i <=? length (parlog w))%nat; cbn [check ret fail bindM fst snd app] in Ec; [|injection Ec as <-; auto].
         pose proof (good_nonneg c _ _ _ G).
         destruct (Truncate_ok _ _ (BaseC (logIndex w) + Z.of_nat (kept w i)) (g_idx _ _ _ _ G) ltac:(lia)) as (s' & Hs & _).
         rewrite Hs in Ec. cbn [emit lift bindM fst snd app] in Ec. discriminate. }
    destruct (cut_good c ok _ _ _ _ _ _ _ _ _ _ GG Hk eq_refl Hs1 Hs2 Ec) as (Hne & -> & G1 & P1 & R1 & B1 & PA & Z1 & Z2).
    unfold bindM at 1 in H. cbn [fst snd] in H.
    match type of H with (_ ++ fst ?m, _) = _ => destruct m as [o2 r2] eqn:E2 end. cbn [fst snd] in H. injection H as <- <-.
    cbn [app] in Hp. set (d1 := applyAll [PTrunc (kept w i * 400); PSync] d) in *.
    assert (Hcut : powerLoss (o2 ++ match r2 with Ok _ => tail | Panic => [] end) None d1 d' -> 
       (exists n s, between (keptLog w i) s d' /\ sLog s = sLog (sAppendAll (sKeep (content w) i) (firstn n es))) \/
       exists w', r2 = Ok w' /\ powerLoss tail None (applyAll o2 d1) d').
    { intros Hp2.
      assert (Elg : entries w1 = sLog (sKeep (content w) i)).
      { rewrite (content_keep c _ _ _ i G). cbn [sLog]. unfold entries. rewrite R1, firstn_map. reflexivity. }
      destruct (Z.eq_dec (sBaseTerm (content w1)) (sBaseTerm (content w))) as [Ebt|Ebt].
      - assert (EK : content w1 = sKeep (content w) i).
        { rewrite (content_keep c _ _ _ i G) in *. cbn [sLog] in Elg. unfold content. rewrite B1, Elg.
          unfold content in Ebt. cbn [sBaseTerm] in Ebt. rewrite Ebt. reflexivity. }
        exact (Rest w1 d1 _ true o2 r2 None G1 R1 EK I E2 Hp2).
      - (* the first entry is refused *)
        assert (H0 : kept w i = O). { destruct (kept w i) eqn:E0; [reflexivity|]. exfalso. apply Ebt. apply Z2. discriminate. }
        destruct (Z1 H0) as [L0 LT]. destruct es as [|e es]; [congruence|].
        assert (Hpanic : saveAll c (e :: es) w1 = ([], Panic)).
        { cbn [saveAll]. destruct (saveEntry c false e w1) as [oe re] eqn:Ee.
          destruct (saveEntry_cases c _ _ _ _ _ _ _ G1 Ee) as [[-> ->]|(Hll & _)]; [reflexivity|].
          exfalso. apply Ebt. pose proof (g_bt _ _ _ _ G).
          unfold content at 1. rewrite R1, H0. cbn [firstn sBaseTerm].
          pose proof (lastTerm_spec _ _ (g_idx _ _ _ _ G1)) as X. rewrite R1, H0 in X. cbn [firstn pTerms terms map last] in X. lia. }
        rewrite Hpanic in E2. unfold bindM at 1 in E2. cbn [fst snd] in E2. injection E2 as <- <-.
        cbn [app] in Hp2. apply pl_final in Hp2. subst d'. left.
        exists O, (content w1). split; [|exact Elg]. exists w1, d1, (image (firstn (kept w i) (raftLog w)) (skipn (kept w i) (raftLog w))), [].
        split; [exact G1|]. split; [reflexivity|]. split; [rewrite app_nil_r; exact R1|].
        split; [exists (image (firstn (kept w i) (raftLog w)) (skipn (kept w i) (raftLog w))); rewrite (g_wal _ _ _ _ G1), R1; reflexivity|].
        exists []. rewrite !app_nil_r. split; [|cbn; lia]. rewrite (g_par _ _ _ _ G1), (g_pars _ _ _ _ G1), R1. reflexivity. }
    assert (Hcut' : powerLoss (o2 ++ match r2 with Ok _ => tail | Panic => [] end) None d1 d' -> 
       d' = d \/ (exists n s, between (keptLog w i) s d' /\ sLog s = sLog (sAppendAll (sKeep (content w) i) (firstn n es))) \/
       exists w', r2 = Ok w' /\ powerLoss tail None (applyAll ([PTrunc (kept w i * 400); PSync] ++ o2) d) d').
    { intros X. rewrite applyAll_app. right. exact (Hcut X). }
    cbn [app] in Hp. inversion Hp; subst; try contradiction.
    { left. apply surv_none. assumption. }
    match goal with X : powerLoss (PSync :: _) _ _ d' |- _ => inversion X; subst; try contradiction end.
    + apply Hcut'. apply (pl_now _ None d1). assumption.
    + apply Hcut'. assumption.
  - assert (E0 : (oc =? 0)%nat = true) by (apply Nat.eqb_eq; lia). rewrite E0 in *. cbn [negb] in H.
    assert (R0 : raftLog w = keptLog w i) by (unfold keptLog; rewrite firstn_all2 by lia; reflexivity).
    assert (EK : content w = sKeep (content w) i).
    { rewrite (content_keep c _ _ _ i G). rewrite firstn_all2; [reflexivity|]. rewrite entries_len. exact Hk. }
    unfold bindM at 1 in H. cbn [ret fst snd app] in H.
    match type of H with (fst ?m, _) = _ => destruct m as [o2 r2] eqn:E2 end. cbn [fst snd] in H. injection H as <- <-.
    right. exact (Rest w d [] false o2 r2 None G R0 EK I E2 Hp).
Qed.

(** opening a disk on which a log was being extended *)
Lemma sAppendAll_firstn : forall es s n, exists m, firstn (length (sLog s) + n) (sLog (sAppendAll s es)) = sLog (sAppendAll s (firstn m es)).
Proof.
  induction es as [|e es IH]; intros s n.
  - exists O. cbn. apply firstn_all2. lia.
  - destruct n as [|n].
    + exists O. cbn [firstn]. unfold sAppendAll at 2. cbn [fold_left]. rewrite Nat.add_0_r.
      assert (X : forall l s0, exists t, sLog (sAppendAll s0 l) = sLog s0 ++ t).
      { induction l as [|a l IHl]; intros s0; [exists []; rewrite app_nil_r; reflexivity|].
        unfold sAppendAll in *. cbn [fold_left]. destruct (IHl (sAppend s0 a)) as (t & Ht). rewrite Ht.
        unfold sAppend at 1. cbn [sLog]. rewrite <- app_assoc. eauto. }
      destruct (X (e :: es) s) as (t & ->). apply firstn_exact.
    + destruct (IH (sAppend s e) n) as (m & Hm). exists (S m). cbn [firstn]. unfold sAppendAll in *. cbn [fold_left].
      rewrite <- Hm. f_equal. unfold sAppend. cbn [sLog]. rewrite app_length. cbn [length]. lia.
Qed.
Lemma open_between : forall pre s d' w', between pre s d' -> noCollision c (dWal d') (sLog s) -> openWal c d' = Ok w' ->
  exists n, (length pre <= n)%nat /\ entries w' = firstn n (sLog s).
Proof.
  intros pre s d' w' (w & d & j & more & G & Es & El & Hw & torn & Hp & Ht) Hnc H.
  assert (Hslot : Forall slotted (parsOf 0 [] (pre ++ more))).
  { rewrite <- El, <- (g_pars _ _ _ _ G). apply (g_slot _ _ _ _ G). }
  destruct torn as [|z torn].
  2: { rewrite (open_torn _ _ (z :: torn) Hslot ltac:(cbn [length] in *; lia) Hp) in H. discriminate. }
  rewrite app_nil_r in Hp.
  assert (Hsl : sLog s = map fst (pre ++ more)) by (rewrite <- Es, <- El; reflexivity).
  pose proof (linked_t c _ _ _ G) as Hl. rewrite El in Hl.
  destruct (open_damaged pre more d' w' _ _ Hl (good_nonneg c _ _ _ G) Hslot Hp Hw ltac:(rewrite <- Hsl; exact Hnc) H) as (n & A & B & _).
  exists n. split; [exact A|]. unfold entries. rewrite B, Hsl, firstn_map. reflexivity.
Qed.

(** ** Compaction *)

Lemma open_mismatch : forall d x l y l', dWal d = image [] (x :: l) -> dPar d = parImage (parsOf 0 [] (y :: l')) ->
  Forall slotted (parsOf 0 [] (y :: l')) -> snd x = encE c (fst x) -> fits (snd x) -> snd y = encE c (fst y) -> fst x <> fst y ->
  (b3 c (snd x) = b3 c (snd y) -> snd x = snd y) -> openWal c d = Panic.
Proof.
  intros d [e b] l [e' b'] l' Ew Ep Hs Hb Hf Hb' Hne Hinj. cbn [fst snd] in *. subst b b'.
  unfold openWal. rewrite Ep, (newParLog_image c ok) by exact Hs. cbn [bind].
  destruct (dWal d) as [|z f] eqn:Ed.
  { exfalso. cbn [Wal_Proofs.image snd] in Ew. symmetry in Ew. apply app_eq_nil in Ew as [Ew _].
    pose proof (recB_len c ok [] e Hf) as X. rewrite Ew in X. cbn in X. lia. }
  remember (length (z :: f)) as nn eqn:Enn. clear Enn. cbn [loadPath]. cbn [fresh parlog raftLog]. rewrite Ew.
  pose proof (loadEntry_rec c ok [] e (parsOf 0 [] ((e', encE c e') :: l')) [] (image ([] ++ [(e, encE c e)]) l) Hf) as X.
  change ([] ++ recB c [] (encE c e) ++ image ([] ++ [(e, encE c e)]) l) with (image [] ((e, encE c e) :: l)) in X.
  cbn [length] in X. rewrite X. clear X. cbn [nth_error Wal_Proofs.parsOf parOf pHash snd].
  destruct (beqb (b3 c (encE c e)) (b3 c (encE c e'))) eqn:Eb; [|reflexivity].
  apply beqb_eq in Eb. apply Hinj in Eb. exfalso. apply Hne.
  assert (Some e = Some e') by (rewrite <- !(ok_E c ok), Eb; reflexivity). congruence.
Qed.
Lemma piece_first : forall x l, piece (snd x) (image [] (x :: l)).
Proof.
  intros x l. cbn [Wal_Proofs.image]. unfold recB. rewrite frame_hdr. exists (hdr (snd x)), (sumFrame c [] (snd x) ++ image ([] ++ [x]) l).
  rewrite <- !app_assoc. reflexivity.
Qed.
Lemma linked_in : forall log i t x, linked i t log -> In x log -> snd x = encE c (fst x) /\ fits (snd x) /\ i < eIndex (fst x).
Proof.
  induction log as [|[e b] log IH]; intros i t x H Hx; [contradiction|]. cbn [Wal_Proofs.linked] in H.
  destruct H as (_ & Hi & _ & _ & -> & Hf & H). destruct Hx as [<-|Hx]; [cbn [fst snd]; repeat split; try apply Hf; lia|].
  destruct (IH _ _ _ H Hx) as (A & B & C). split; [exact A|]. split; [exact B|]. lia.
Qed.

Lemma compact_crash : forall cfg k w d ops r d', good w d -> compact c cfg k w = (ops, r) -> powerLoss ops None d d' ->
  noCollision c (dWal d') (entries w) ->
  d' = d \/ openWal c d' = Panic \/
  (exists w1, good w1 d' /\ entries w1 = sLog (sCompact (content w) k) /\ sBase (content w) + 1 < k).
Proof.
  intros cfg k w d ops r d' GG H Hp Hnc. pose proof GG as [G _]. unfold compact in H.
  destruct (noLogCompaction cfg); cbn [negb check fail ret bindM fst snd app] in H.
  { injection H as <- <-. left. apply pl_final. exact Hp. }
  assert (Eops : ops = fst (compactGo c k w)).
  { unfold bindM in H. destruct (compactGo c k w) as [o [w1|]]; cbn [fst snd] in *; [|congruence].
    unfold check in H. destruct (consistent w1); cbn [ret fail fst snd app] in H; rewrite ?app_nil_r in H; congruence. }
  clear H. destruct (compactGo c k w) as [o r'] eqn:Eg. cbn [fst] in Eops. subst o.
  destruct (compactGo_cases c ok _ _ _ _ _ GG Eg) as [[-> _]|[[-> _]|(w1 & p & f & _ & -> & Hk & G1 & C1 & _ & _ & n & Hn & R1)]].
  - left. apply pl_final. exact Hp.
  - left. inversion Hp; subst; try contradiction. { apply surv_none. assumption. }
    match goal with X : powerLoss [WSync] _ _ d' |- _ => inversion X; subst; try contradiction end. { apply surv_none. assumption. }
    apply pl_final. assumption.
  - pose proof G1 as [G1' _]. pose proof (linked_t c _ _ _ G) as Hl.
    destruct (raftLog w) as [|x l] eqn:El; [cbn in Hn; lia|].
    destruct (skipn n (x :: l)) as [|y l'] eqn:Es.
    { apply (f_equal (@length _)) in Es. rewrite skipn_length in Es. cbn [length] in *. lia. }
    assert (Hy : In y l). { destruct n as [|n]; [lia|]. cbn [skipn] in Es. rewrite <- (firstn_skipn n l), Es. apply in_or_app. right. left. reflexivity. }
    assert (Hx0 : snd x = encE c (fst x) /\ fits (snd x)) by (destruct (linked_in _ _ _ x Hl (or_introl eq_refl)) as (A & B & _); auto).
    assert (Hy0 : snd y = encE c (fst y) /\ fits (snd y)) by (destruct (linked_in _ _ _ y Hl (or_intror Hy)) as (A & B & _); auto).
    assert (Hxy : fst x <> fst y).
    { intro X. destruct x as [ex bx]. cbn [Wal_Proofs.linked] in Hl. destruct Hl as (_ & Hi & _ & _ & _ & _ & Hl).
      destruct (linked_in _ _ _ _ Hl Hy) as (_ & _ & C). cbn [fst] in *. rewrite <- X in C. lia. }
    pose proof (g_wal _ _ _ _ G) as Ew. rewrite app_nil_r, El in Ew.
    pose proof (g_par _ _ _ _ G) as Epr. rewrite (g_pars _ _ _ _ G), El in Epr.
    pose proof (g_slot _ _ _ _ G) as Hsl. rewrite (g_pars _ _ _ _ G), El in Hsl.
    pose proof (g_wal _ _ _ _ G1') as Ew1. rewrite app_nil_r, R1 in Ew1. cbn [dWal] in Ew1.
    pose proof (g_par _ _ _ _ G1') as Epr1. rewrite (g_pars _ _ _ _ G1'), R1 in Epr1. cbn [dPar] in Epr1.
    pose proof (g_slot _ _ _ _ G1') as Hsl1. rewrite (g_pars _ _ _ _ G1'), R1 in Hsl1.
    assert (Hin : In (fst x) (entries w) /\ In (fst y) (entries w)).
    { unfold entries. rewrite El. split; apply in_map; [left; reflexivity|right; exact Hy]. }
    assert (Mix1 : dWal d' = dWal d -> dPar d' = p -> openWal c d' = Panic).
    { intros E1 E2. apply (open_mismatch d' x l y l'); try (congruence || apply Hx0 || apply Hy0).
      intros Hh. destruct Hy0 as [Hy0 _]. rewrite Hy0. apply (Hnc (fst y)); [apply Hin| |congruence].
      rewrite E1, Ew. apply piece_first. }
    assert (Mix2 : dWal d' = f -> dPar d' = dPar d -> openWal c d' = Panic).
    { intros E1 E2. apply (open_mismatch d' y l' x l); try (congruence || apply Hx0 || apply Hy0).
      intros Hh. destruct Hx0 as [Hx0 _]. rewrite Hx0. apply (Hnc (fst x)); [apply Hin| |congruence].
      rewrite E1, Ew1. apply piece_first. }
    assert (New : d' = mkD f p -> exists w1, good w1 d' /\ entries w1 = sLog (sCompact (content w) k) /\ sBase (content w) + 1 < k).
    { intros ->. exists w1. split; [exact G1|]. split; [rewrite <- C1; reflexivity|]. apply Hk. }
    inversion Hp; subst; try contradiction. { left. apply surv_none. assumption. }
    match goal with X : powerLoss (WSync :: _) _ _ d' |- _ => inversion X; subst; try contradiction end. { left. apply surv_none. assumption. }
    match goal with X : powerLoss (PNew _ :: _) _ _ d' |- _ => inversion X; subst; try contradiction end.
    { left. apply surv_none. assumption. }
    2: { right. left. apply Mix2; reflexivity. }
    match goal with X : powerLoss (WNew _ :: _) _ _ d' |- _ => inversion X; subst; try contradiction end.
    { right. left. apply Mix1; [assumption|reflexivity]. }
    right. right. apply New.
    match goal with X : powerLoss [DirSync] _ _ d' |- _ => inversion X; subst; try contradiction end.
    { apply surv_none. assumption. }
    match goal with X : powerLoss [] _ _ d' |- _ => apply pl_final in X; rewrite X end. reflexivity.
Qed.

(** ** Each call, from a reachable state *)

Theorem append_crash : forall cfg w d lim e ops r d', reach c cfg w d lim -> okEntry c e ->
  saveRaftLogEntry c e w = (ops, r) -> powerLoss ops None d d' ->
  match openWal c d' with
  | Panic => True
  | Ok w' => (d' = d /\ entries w' = entries w) \/
             (d' = applyAll ops d /\ (exists w1, r = Ok w1) /\ entries w' = entries w ++ [stamp (content w) e])
  end.
Proof.
  intros cfg w d lim e ops r d' HR He H Hp. destruct (openWal c d') as [w'|] eqn:Ho; [|exact I].
  destruct (reach_good c ok _ _ _ _ HR) as [GG HL]. pose proof GG as [G _]. unfold saveRaftLogEntry in H.
  pose proof (linked_t c _ _ _ G) as Hl. pose proof (good_nonneg c _ _ _ G) as Hb. pose proof (g_bt _ _ _ _ G) as Hbt.
  destruct (saveEntry_crash true (raftLog w) [] w d [] None e [] d' ops r G ltac:(rewrite app_nil_r; reflexivity) I (He _ _) H) as [X|(w1 & low' & -> & _ & Hn & Hp')].
  { destruct r; rewrite app_nil_r; exact Hp. }
  - left. destruct X as ((junk & Hw) & torn & Hpar & Ht). rewrite app_nil_r in Hpar.
    assert (Hslot : Forall slotted (parsOf 0 [] (raftLog w))) by (rewrite <- (g_pars _ _ _ _ G); apply (g_slot _ _ _ _ G)).
    destruct torn as [|z torn].
    2: { rewrite (open_torn _ _ (z :: torn) Hslot ltac:(cbn [length] in *; lia) Hpar) in Ho. discriminate. }
    rewrite app_nil_r in Hpar.
    destruct (open_exact _ _ _ _ _ _ Hl Hb ltac:(lia) Hslot Hpar Hw Ho) as [-> E]. rewrite app_nil_r in Hw.
    split; [|unfold entries; rewrite E; reflexivity].
    destruct d as [dw dp], d' as [dw' dp']. cbn [dWal dPar] in *.
    pose proof (g_wal _ _ _ _ G) as Ew. pose proof (g_par _ _ _ _ G) as Ep. rewrite app_nil_r in Ew. rewrite (g_pars _ _ _ _ G) in Ep. cbn [dWal dPar] in *. congruence.
  - right. rewrite (Hn eq_refl) in Hp'. apply pl_final in Hp'. split; [exact Hp'|]. split; [eauto|]. subst d'.
    destruct (save_step c ok _ _ _ _ _ _ GG HL He H) as (G1 & _ & C1).
    destruct (reopen_step c ok _ _ G1) as (w2 & A & _ & B & _). rewrite A in Ho. injection Ho as <-. rewrite B.
    assert (X : sLog (content w1) = sLog (sAppend (content w) e)) by (rewrite C1; reflexivity). exact X.
Qed.

Lemma noCollision_sub : forall f a b, (forall e, In e b -> In e a) -> noCollision c f a -> noCollision c f b.
Proof. intros f a b H Hn e x He. apply Hn. auto. Qed.
Lemma firstn_incl' : forall A n (l : list A) x, In x (firstn n l) -> In x l.
Proof. intros A n l x H. rewrite <- (firstn_skipn n l). apply in_or_app. auto. Qed.

Lemma open_is : forall w d w', good w d -> openWal c d = Ok w' -> entries w' = entries w.
Proof. intros w d w' G H. destruct (reopen_step c ok _ _ G) as (w2 & A & _ & B & _). congruence. Qed.

Theorem compact_crash' : forall cfg w d lim k ops r d' w', reach c cfg w d lim -> compact c cfg k w = (ops, r) ->
  powerLoss ops None d d' -> noCollision c (dWal d') (entries w) -> openWal c d' = Ok w' ->
  entries w' = entries w \/ entries w' = sLog (sCompact (content w) k).
Proof.
  intros cfg w d lim k ops r d' w' HR H Hp Hnc Ho. destruct (reach_good c ok _ _ _ _ HR) as [GG _].
  destruct (compact_crash _ _ _ _ _ _ _ GG H Hp Hnc) as [->|[X|(w1 & G1 & E1 & _)]].
  - left. exact (open_is _ _ _ GG Ho).
  - congruence.
  - right. rewrite <- E1. exact (open_is _ _ _ G1 Ho).
Qed.

Lemma firstn_sAppendAll_in : forall es s n e, In e (sLog (sAppendAll s (firstn n es))) -> In e (sLog (sAppendAll s es)).
Proof.
  intros es s n e. rewrite <- (firstn_skipn n es) at 2. unfold sAppendAll. rewrite fold_left_app.
  generalize (fold_left sAppend (firstn n es) s) as s1. generalize (skipn n es) as l. clear. 
  induction l as [|a l IH]; intros s1 H; [exact H|]. cbn [fold_left]. apply IH. unfold sAppend. cbn [sLog]. apply in_or_app. auto.
Qed.

Theorem overwrite_crash : forall cfg w d lim i es isLeader commit applied ops r d' w', reach c cfg w d lim ->
  Forall (okEntry c) es -> consecutive (i + 1) es ->
  ((kept w i < length (raftLog w))%nat -> within lim (kept w i)) ->
  overwriteEntries c cfg i es isLeader commit applied d w = (ops, r) -> powerLoss ops None d d' ->
  noCollision c (dWal d') (entries w ++ sLog (sOverwrite (content w) i es)) -> openWal c d' = Ok w' ->
  entries w' = entries w \/
  (exists n, entries w' = sLog (sAppendAll (sKeep (content w) i) (firstn n (filter (fun e => sBase (content w) <? eIndex e) es)))) \/
  (sBase (content w) + 1 < applied /\ entries w' = sLog (sCompact (sOverwrite (content w) i es) applied)).
Proof.
  intros cfg w d lim i es isLeader commit applied ops r d' w' HR Hok Hc Hw H Hp Hnc Ho.
  destruct (reach_good c ok _ _ _ _ HR) as [GG HL]. pose proof GG as [G _].
  assert (Same : d' = d -> entries w' = entries w) by (intros ->; exact (open_is _ _ _ GG Ho)).
  unfold overwriteEntries in H. destruct isLeader; cbn [negb check fail ret bindM fst snd app] in H.
  { injection H as <- <-. left. apply Same. apply pl_final. exact Hp. }
  pose proof (plan_spec c w d i es GG Hc) as HP. cbn [content sBase] in *.
  destruct (plan i es w) as [[[[k es'] kc] oc]|].
  2: { injection H as <- <-. left. apply Same. apply pl_final. exact Hp. }
  destruct HP as (Hn & -> & Eoc & Hlt).
  set (es' := filter (fun e => BaseC (logIndex w) <? eIndex e) es) in *.
  assert (Hall : okAll c (sKeep (content w) i) es').
  { apply okAll_ok. apply Forall_forall. intros e He. apply filter_In in He as [He _]. rewrite Forall_forall in Hok. auto. }
  assert (ES : sAppendAll (sKeep (content w) i) es' = sOverwrite (content w) i es).
  { unfold sOverwrite. cbn [content sBase]. destruct ((i <? BaseC (logIndex w)) && _) eqn:En; [|reflexivity].
    apply andb_prop in En as [E1 E2]. apply Z.ltb_lt in E1. apply Z.leb_le in E2. exfalso. auto. }
  destruct (rewrite c cfg k (Z.to_nat kc) (Z.to_nat oc) es' commit w) as [o1 r1] eqn:Er. cbn [fst snd] in H.
  assert (Hlt' : (kept w i < length (raftLog w))%nat -> within lim (kept w i) /\ Z.to_nat kc = kept w i /\ k = BaseC (logIndex w) + Z.of_nat (kept w i)).
  { intros X. split; [auto|exact (Hlt X)]. }
  assert (Betw : forall n s, between (keptLog w i) s d' -> sLog s = sLog (sAppendAll (sKeep (content w) i) (firstn n es')) ->
     exists n, entries w' = sLog (sAppendAll (sKeep (content w) i) (firstn n es'))).
  { intros n s HB Es.
    destruct (open_between _ _ _ w' HB) as (m & Hm & E); auto.
    { rewrite Es. eapply noCollision_sub; [|exact Hnc]. intros e He. apply in_or_app. right. rewrite <- ES. exact (firstn_sAppendAll_in _ _ _ _ He). }
    rewrite E, Es.
    assert (Hlen : (length (sLog (sKeep (content w) i)) <= m)%nat).
    { rewrite (content_keep c _ _ _ i G). cbn [sLog]. unfold keptLog in Hm. rewrite firstn_length in *. rewrite entries_len. exact Hm. }
    destruct (sAppendAll_firstn (firstn n es') (sKeep (content w) i) (m - length (sLog (sKeep (content w) i)))) as (m' & Em).
    replace (length (sLog (sKeep (content w) i)) + (m - length (sLog (sKeep (content w) i))))%nat with m in Em by lia.
    exists (Nat.min m' n). rewrite Em, firstn_firstn. reflexivity. }
  unfold bindM in H. cbn [fst snd] in H. destruct r1 as [w2|]; cbn [fst snd] in H.
  - destruct (rewrite_good c ok cfg w d lim i k (Z.to_nat kc) (Z.to_nat oc) es' commit _ _ GG HL Hall Hlt' Eoc Er) as (A1 & A2 & A3 & _).
    match type of H with (_ ++ fst ?m, _) = _ => destruct m as [o2 r2] eqn:E2 end. cbn [fst snd] in H. injection H as <- <-.
    destruct (rewrite_crash cfg w d lim i k (Z.to_nat kc) (Z.to_nat oc) es' commit o1 (Ok w2) o2 d' GG HL Hall Hlt' Eoc Er Hp) as [X|[(n & s & HB & Es)|(w3 & Ew & Hp2)]].
    + left. exact (Same X).
    + right. left. exact (Betw n s HB Es).
    + clear w3 Ew. assert (Full : forall wx, good wx d' -> content wx = content w2 -> exists n, entries w' = sLog (sAppendAll (sKeep (content w) i) (firstn n es'))).
      { intros wx Gx Ex. exists (length es'). rewrite firstn_all, (open_is _ _ _ Gx Ho).
        change (entries wx) with (sLog (content wx)). rewrite Ex, A2. reflexivity. }
      assert (Nope : o2 = [] -> exists n, entries w' = sLog (sAppendAll (sKeep (content w) i) (firstn n es'))).
      { intros ->. apply pl_final in Hp2. apply (Full w2); [rewrite Hp2; exact A1|reflexivity]. }
      destruct (negb (noLogCompaction cfg) && _).
      2: { injection E2 as <- <-. right. left. apply Nope. reflexivity. }
      unfold maybeCompact in E2. destruct (noLogCompaction cfg) eqn:Enc. { injection E2 as <- <-. right. left. apply Nope. reflexivity. }
      destruct (prevApplied w2 <? applied). 2: { injection E2 as <- <-. right. left. apply Nope. reflexivity. }
      pose proof (good_prevApplied c _ _ applied A1) as A1'.
      set (wp := mkW (raftLog w2) (lli w2) (llt w2) (begseekpos w2) (fdpos w2) (logIndex w2) (parlog w2) applied) in *.
      assert (Ewp : content wp = content w2) by reflexivity.
      assert (EL : entries wp = sLog (sOverwrite (content w) i es)) by (change (entries wp) with (sLog (content wp)); rewrite Ewp, A2, ES; reflexivity).
      destruct (compact_crash cfg applied wp _ _ _ _ A1' E2 Hp2) as [X|[X|(w1 & G1 & E1 & Hne)]].
      * rewrite EL. eapply noCollision_sub; [|exact Hnc]. intros. apply in_or_app. auto.
      * right. left. apply (Full w2); [rewrite X; exact A1|reflexivity].
      * congruence.
      * right. right. rewrite (open_is _ _ _ G1 Ho), E1, Ewp, A2, ES. split; [|reflexivity].
        rewrite Ewp, A2, sAppendAll_base in Hne. exact Hne.
  - injection H as <- <-.
    destruct (rewrite_crash cfg w d lim i k (Z.to_nat kc) (Z.to_nat oc) es' commit o1 Panic [] d' GG HL Hall Hlt' Eoc Er) as [X|[(n & s & HB & Es)|(w3 & Ew & Hp2)]].
    + rewrite app_nil_r. exact Hp.
    + left. exact (Same X).
    + right. left. exact (Betw n s HB Es).
    + discriminate.
Qed.
End W.
