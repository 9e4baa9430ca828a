(** Opening any disk; saving and overwriting keep the files the image of the log. *)
From Coq Require Import List ZArith Lia Bool.
From Verif Require Import Base Rle_Model Rle_Spec Rle_Proofs Wal_Model Wal_Spec Wal_Proofs.
Import ListNotations.
Open Scope Z_scope.

Lemma bindM_ok : forall A B (m : M A) (k : A -> M B) ops y, bindM m k = (ops, Ok y) ->
  exists o1 x o2, m = (o1, Ok x) /\ k x = (o2, Ok y) /\ ops = o1 ++ o2.
Proof.
  intros A B [o r] k ops y H. unfold bindM in H. cbn [fst snd] in H. destruct r as [x|]; [|discriminate].
  exists o, x. destruct (k x) as [o2 r2] eqn:E. cbn [fst snd] in H. injection H as <- ->. eauto.
Qed.
Lemma check_ok : forall b ops u, check b = (ops, Ok u) -> b = true /\ ops = [].
Proof. intros [] ops u H; unfold check, ret, fail in H; [injection H as <- <-; auto|discriminate]. Qed.
Lemma lift_ok : forall A (r : res A) ops x, lift r = (ops, Ok x) -> r = Ok x /\ ops = [].
Proof. intros A r ops x H. unfold lift in H. injection H as <- ->. auto. Qed.
Lemma emit_ok : forall o ops u, emit o = (ops, Ok u) -> ops = o.
Proof. intros o ops u H. unfold emit in H. congruence. Qed.
Lemma ret_ok : forall A (x y : A) ops, ret x = (ops, Ok y) -> x = y /\ ops = [].
Proof. intros A x y ops H. unfold ret in H. injection H as <- <-. auto. Qed.
Ltac mok H :=
  apply bindM_ok in H; let o := fresh "o" in let x := fresh "x" in let o' := fresh "o" in
  let H1 := fresh "H" in let H2 := fresh "H" in let Eo := fresh "Eo" in
  destruct H as (o & x & o' & H1 & H2 & Eo);
  first [ apply check_ok in H1 as [H1 ->] | apply lift_ok in H1 as [H1 ->] | apply emit_ok in H1 as -> | idtac ];
  rename H2 into H.

Lemma applyAll_app : forall a b d, applyAll (a ++ b) d = applyAll b (applyAll a d).
Proof. intros. unfold applyAll. apply fold_left_app. Qed.

Lemma pad_exact : forall a j, pad (length a) (a ++ j) = a.
Proof.
  intros. unfold pad. rewrite firstn_exact, app_length.
  replace (length a - (length a + length j))%nat with O by lia. apply app_nil_r.
Qed.
Lemma writeAt_exact : forall a b j, writeAt (length a) b (a ++ j) = a ++ b ++ skipn (length b) j.
Proof. intros. unfold writeAt. rewrite pad_exact, Nat.add_comm, <- skipn_skipn, skipn_exact. reflexivity. Qed.

Section W.
Context (c : codec) (ok : codec_ok c).
Notation image := (image c).
Notation parsOf := (parsOf c).
Notation parImage := (parImage c).
Notation linked := (linked c).
Notation slotted := (slotted c).
Notation recB := (recB c).
Notation hashed := (hashed c).
Notation offsets := (offsets c).

(** ** Any file *)

Lemma loadEntry_some : forall f ps log pos e b p', loadEntry c f ps log pos = Ok (Some (e, b, p')) ->
  piece b f /\ decE c b = Some e /\ (pos < p')%nat /\ (pos < length f)%nat /\
  exists p, nth_error ps (length log) = Some p /\ pHash p = b3 c b.
Proof.
  intros f ps log pos e b p' H. unfold loadEntry in H.
  destruct (nextframe f pos) as [| |b1 raw1 pos1] eqn:E1; try discriminate.
  destruct (decE c b1) as [e1|] eqn:Ed; [|discriminate].
  destruct (nextframe f pos1) as [| |s raw2 pos2] eqn:E2; try discriminate.
  destruct (decS c s) as [[h hc]|]; [|discriminate].
  destruct (negb _); [discriminate|]. destruct (negb _); [discriminate|].
  destruct (nth_error ps (length log)) as [p|] eqn:Ep; [|discriminate].
  destruct (beqb (b3 c b1) (pHash p)) eqn:Eh; [|discriminate]. apply beqb_eq in Eh.
  injection H as <- <- <-.
  apply nextframe_piece in E1 as (? & ? & ?). apply nextframe_piece in E2 as (_ & ? & _).
  split; [assumption|]. split; [assumption|]. split; [lia|]. split; [lia|]. eauto.
Qed.
Lemma loadEntry_nopar : forall f ps log pos, (pos < length f)%nat -> nth_error ps (length log) = None ->
  loadEntry c f ps log pos = Panic.
Proof.
  intros f ps log pos Hp Hn. unfold loadEntry, nextframe at 1.
  destruct (length (skipn pos f)) eqn:E; [rewrite skipn_length in E; lia|]. rewrite <- E.
  destruct (_ <? 5)%nat; [reflexivity|].
  destruct (unframe _) as [[tot hd]|]; [|reflexivity].
  destruct (_ <? tot)%nat; [reflexivity|].
  destruct (decE c _); [|reflexivity]. destruct (nextframe _ _); try reflexivity.
  destruct (decS c _) as [[h hc]|]; [|reflexivity]. rewrite Hn.
  destruct (negb _); [reflexivity|]. destruct (negb _); reflexivity.
Qed.

Lemma loadPath_any : forall fuel f pos w w', loadPath c fuel f pos w = Ok w' ->
  parlog w' = parlog w /\ exists more, raftLog w' = raftLog w ++ more /\
    forall j x, nth_error more j = Some x -> piece (snd x) f /\ decE c (snd x) = Some (fst x) /\
      exists p, nth_error (parlog w) (length (raftLog w) + j) = Some p /\ pHash p = b3 c (snd x).
Proof.
  induction fuel as [|fuel IH]; intros f pos w w' H; cbn [loadPath] in H; [discriminate|].
  destruct (loadEntry c f (parlog w) (raftLog w) pos) as [[[[e b] pos']|]|] eqn:El; unfold bind at 1 in H; try discriminate.
  - apply loadEntry_some in El as (Hp & Hd & _ & _ & p & Hn & Hh).
    assert (Done : forall w1, raftLog w1 = raftLog w ++ [(e, b)] -> parlog w1 = parlog w ->
       loadPath c fuel f pos' w1 = Ok w' -> parlog w' = parlog w /\ exists more, raftLog w' = raftLog w ++ more /\
         forall j x, nth_error more j = Some x -> piece (snd x) f /\ decE c (snd x) = Some (fst x) /\
           exists p, nth_error (parlog w) (length (raftLog w) + j) = Some p /\ pHash p = b3 c (snd x)).
    { intros w1 E1 E2 Hl. apply IH in Hl as (Hpl & more & Em & Hm). rewrite E1 in *. rewrite E2 in *.
      split; [exact Hpl|]. exists ((e, b) :: more). split; [rewrite Em, <- app_assoc; reflexivity|].
      intros [|j] x Hx; cbn [nth_error] in Hx.
      - injection Hx as <-. cbn [fst snd]. rewrite Nat.add_0_r. eauto.
      - destruct (Hm j x Hx) as (A & B & C). rewrite app_length in C. cbn [length] in C.
        replace (length (raftLog w) + S j)%nat with (length (raftLog w) + 1 + j)%nat by lia. auto. }
    destruct (prevIndexTerm (raftLog w)) as [[pi pt]|] eqn:Epi.
    + destruct (_ || _); [discriminate|]. destruct (AddTerm _ _) as [x'|]; unfold bind at 1 in H; [|discriminate].
      refine (Done _ _ _ H); reflexivity.
    + destruct (negb _); [discriminate|]. destruct (AddTerm _ _) as [x'|]; unfold bind at 1 in H; [|discriminate].
      refine (Done _ _ _ H); cbn; [|reflexivity].
      unfold prevIndexTerm in Epi. destruct (rev (raftLog w)) as [|[? ?] ?] eqn:Er; [|discriminate].
      rewrite <- (rev_involutive (raftLog w)), Er. reflexivity.
  - injection H as <-. split; [reflexivity|]. exists []. rewrite app_nil_r. split; [reflexivity|].
    intros [|j] x Hx; discriminate.
Qed.

(** the fuel given by openWal is enough: more fuel changes nothing *)
Lemma loadPath_fuel : forall fuel fuel' f pos w, (length f - pos < fuel)%nat -> (length f - pos < fuel')%nat ->
  loadPath c fuel f pos w = loadPath c fuel' f pos w.
Proof.
  induction fuel as [|fuel IH]; intros fuel' f pos w H1 H2; [lia|].
  destruct fuel' as [|fuel']; [lia|]. cbn [loadPath].
  destruct (loadEntry c f (parlog w) (raftLog w) pos) as [[[[e b] pos']|]|] eqn:El; cbn [bind]; try reflexivity.
  apply loadEntry_some in El as (_ & _ & Hlt & Hlen & _).
  destruct (prevIndexTerm _) as [[pi pt]|].
  - destruct (_ || _); [reflexivity|]. destruct (AddTerm _ _); unfold bind; [|reflexivity]. apply IH; lia.
  - destruct (negb _); [reflexivity|]. destruct (AddTerm _ _); unfold bind; [|reflexivity]. apply IH; lia.
Qed.

Lemma recB_len : forall pre e, fits (encE c e) -> (10 <= length (recB pre (encE c e)))%nat.
Proof.
  intros pre e H. unfold Wal_Proofs.recB, sumFrame. rewrite app_length.
  pose proof (frame_len5 (encE c e)) as A. unfold fits in H.
  pose proof (ok_fitS c ok (encE c e) (encE c e ++ lastEntryBytes pre)) as B. unfold fits in B.
  pose proof (frame_len5 (encS c (b3 c (encE c e), b3 c (encE c e ++ lastEntryBytes pre)))) as C. lia.
Qed.
Lemma image_len : forall log pre i t, linked i t log -> (10 * length log <= length (image pre log))%nat.
Proof.
  induction log as [|[e b] log IH]; intros pre i t H; cbn [Wal_Proofs.image length]; [lia|].
  cbn [Wal_Proofs.linked] in H. destruct H as (_ & _ & _ & _ & -> & Hf & H). rewrite app_length. cbn [snd].
  pose proof (recB_len pre e Hf). specialize (IH (pre ++ [(e, encE c e)]) _ _ H). lia.
Qed.

(** a file that begins with the image of a log whose hashes are in the parlog *)
Definition blank (w : wal) : Prop :=
  raftLog w = [] /\ Runs (logIndex w) = [] /\ Endi (logIndex w) = 0 /\ begseekpos w = [].
Lemma load_prefix : forall log rest w0 i t, linked i t log -> 0 <= i -> hashed (parlog w0) 0 log -> blank w0 ->
  exists w1, loadPath c (S (length (image [] log ++ rest))) (image [] log ++ rest) 0 w0 =
      loadPath c (S (length (image [] log ++ rest) - length log)) (image [] log ++ rest) (length (image [] log)) w1 /\
    raftLog w1 = log /\ parlog w1 = parlog w0 /\ prevApplied w1 = prevApplied w0 /\ begseekpos w1 = offsets 0 [] log /\
    (log <> [] -> refW (logIndex w1) (mkPlog i 0 (terms log)) /\ CompactTerm (logIndex w1) <= last (terms log) 0 /\
      CompactTerm (logIndex w1) = t /\ lli w1 = i + Z.of_nat (length log) /\ llt w1 = last (terms log) 0).
Proof.
  intros log rest w0 i t Hl Hi Hh (B1 & B2 & B3 & B4).
  pose proof (image_len log [] i t Hl) as Hlen.
  replace (S (length (image [] log ++ rest))) with
    (length log + S (length (image [] log ++ rest) - length log))%nat by (rewrite app_length; lia).
  destruct (loadPath_image c ok log [] 0 w0 (S (length (image [] log ++ rest) - length log))
              (image [] log ++ rest) [] rest i t i t) as (w1 & A1 & A2 & A3 & A4 & A5 & A6 & _); auto.
  exists w1. cbn [Nat.add app] in *. rewrite B4 in A5. split; [exact A1|].
  split; [exact A2|]. split; [exact A3|]. split; [exact A4|]. split; [exact A5|exact A6].
Qed.

(** ** The files hold the log *)

Record goodJ (w : wal) (d : disk) (junk : bytes) : Prop := {
  g_wal : dWal d = image [] (raftLog w) ++ junk;
  g_par : dPar d = parImage (parlog w);
  g_pars : parlog w = parsOf 0 [] (raftLog w);
  g_slot : Forall slotted (parlog w);
  g_link : exists t, linked (BaseC (logIndex w)) t (raftLog w);
  g_idx : refW (logIndex w) (mkPlog (BaseC (logIndex w)) 0 (terms (raftLog w)));
  g_bt : 0 <= sBaseTerm (content w) <= CompactTerm (logIndex w);
  g_ct : CompactTerm (logIndex w) <= lastTerm (logIndex w);
  g_lli : lli w = BaseC (logIndex w) + Z.of_nat (length (raftLog w));
  g_pos : fdpos w = length (image [] (raftLog w)) }.
Definition good (w : wal) (d : disk) : Prop := goodJ w d [] /\ llt w = lastTerm (logIndex w).

Lemma good_lastTerm : forall w d j, goodJ w d j -> lastTerm (logIndex w) = last (terms (raftLog w)) (CompactTerm (logIndex w)).
Proof. intros w d j G. rewrite (lastTerm_spec _ _ (g_idx _ _ _ G)). reflexivity. Qed.

Lemma terms_entries : forall w, terms (raftLog w) = map eTerm (entries w).
Proof. intros. unfold terms, entries. rewrite map_map. reflexivity. Qed.

Lemma last_def : forall A (l : list A) d d', l <> [] -> last l d = last l d'.
Proof. intros A [|a l] d d' H; [congruence|]. rewrite !last_cons. reflexivity. Qed.

Lemma content_last : forall w d j, goodJ w d j -> sLastIndex (content w) = lli w /\ sLastTerm (content w) = lastTerm (logIndex w).
Proof.
  intros w d j G. split.
  - unfold sLastIndex, content. cbn. unfold entries. rewrite map_length. symmetry. apply (g_lli _ _ _ G).
  - unfold sLastTerm, content. cbn [sLog sBaseTerm]. rewrite (good_lastTerm _ _ _ G), terms_entries.
    unfold entries. destruct (raftLog w) as [|[e b] l]; [reflexivity|]. apply last_def. discriminate.
Qed.

(** the state of a log loaded from its image *)
Lemma load_good : forall log w0 i t dp, log <> [] -> linked i t log -> 0 <= i -> 0 <= t -> blank w0 ->
  parlog w0 = parsOf 0 [] log -> Forall slotted (parlog w0) -> dp = parImage (parlog w0) ->
  exists w', loadPath c (S (length (image [] log))) (image [] log) 0 w0 = Ok w' /\
    good w' (mkD (image [] log) dp) /\ raftLog w' = log /\ BaseC (logIndex w') = i /\ prevApplied w' = prevApplied w0 /\
    begseekpos w' = offsets 0 [] log ++ [length (image [] log)].
Proof.
  intros log w0 i t dp Hne Hl Hi Ht Hb Ep Hs ->.
  destruct (load_prefix log [] w0 i t Hl Hi) as (w1 & A1 & A2 & A3 & A40 & A4 & A6); auto.
  { rewrite Ep. exact (hashed_parsOf c [] log 0). }
  destruct (A6 Hne) as (B1 & B2 & B20 & B3 & B4). rewrite app_nil_r in *.
  rewrite A1. cbn [loadPath].
  assert (EE : loadEntry c (image [] log) (parlog w1) (raftLog w1) (length (image [] log)) = Ok None).
  { unfold loadEntry. rewrite nextframe_eof. reflexivity. }
  rewrite EE. cbn [bind]. eexists. split; [reflexivity|]. split; [|cbn [raftLog logIndex begseekpos prevApplied]; split; [exact A2|]].
  - assert (Hlt : lastTerm (logIndex w1) = last (terms log) 0).
    { rewrite (lastTerm_spec _ _ B1). cbn [pTerms]. apply last_def. destruct log; [congruence|discriminate]. }
    split.
    + assert (EB : BaseC (logIndex w1) = i) by apply B1.
      constructor; cbn [dWal dPar raftLog parlog logIndex lli fdpos content]; rewrite ?A2, ?A3; auto.
      * rewrite app_nil_r. reflexivity.
      * rewrite EB. eauto.
      * rewrite EB. exact B1.
      * cbn [content sBaseTerm raftLog logIndex]. rewrite B20. destruct log as [|[e b] l]; [congruence|].
        cbn [Wal_Proofs.linked] in Hl. destruct Hl as (_ & _ & -> & _). lia.
      * rewrite Hlt. exact B2.
      * rewrite EB. exact B3.
    + cbn [llt logIndex]. rewrite B4, Hlt. reflexivity.
  - split; [apply B1|]. split; [exact A40|]. rewrite A4. reflexivity.
Qed.
Lemma image_ne : forall log i t, log <> [] -> linked i t log -> image [] log <> [].
Proof.
  intros log i t Hne Hl X. pose proof (image_len log [] i t Hl) as H. rewrite X in H. cbn [length] in H.
  destruct log; [congruence|]. cbn [length] in H. lia.
Qed.
Lemma open_good : forall log d i t, log <> [] -> linked i t log -> 0 <= i -> 0 <= t -> Forall slotted (parsOf 0 [] log) ->
  dWal d = image [] log -> dPar d = parImage (parsOf 0 [] log) ->
  exists w', openWal c d = Ok w' /\ good w' d /\ raftLog w' = log /\ BaseC (logIndex w') = i /\
    begseekpos w' = offsets 0 [] log ++ [length (image [] log)].
Proof.
  intros log d i t Hne Hl Hi Ht Hs Ew Ep. pose proof (image_ne _ _ _ Hne Hl) as Hine.
  destruct (load_good log (fresh (parsOf 0 [] log)) i t (dPar d) Hne Hl Hi Ht) as (w' & A & B & C & D & _ & E); auto.
  { repeat split. }
  exists w'. split.
  - unfold openWal. rewrite Ep, (newParLog_image c ok) by exact Hs. cbn [bind]. rewrite Ew.
    destruct (image [] log) as [|z f] eqn:Ef; [congruence|]. exact A.
  - split; [|auto]. destruct d as [dw dp]. cbn [dWal dPar] in *. subst. exact B.
Qed.

(** ** Saving *)

Definition raw (es : list entry) : list (entry * bytes) := map (fun e => (e, encE c e)) es.
Lemma linked_raw : forall log i t, linked i t log -> log = raw (map fst log).
Proof.
  induction log as [|[e b] log IH]; intros i t H; [reflexivity|]. cbn [Wal_Proofs.linked] in H.
  destruct H as (_ & _ & _ & _ & -> & _ & H). unfold raw in *. cbn [map fst]. f_equal. exact (IH _ _ H).
Qed.
Lemma good_raw : forall w d j, goodJ w d j -> raftLog w = raw (entries w).
Proof. intros w d j G. destruct (g_link _ _ _ G) as (t & H). exact (linked_raw _ _ _ H). Qed.

Definition recOf (w : wal) (e : entry) : bytes := recB (raftLog w) (encE c (stamp (content w) e)).
Definition parRec (w : wal) (e : entry) : par := parOf c (fdpos w) (raftLog w) (stamp (content w) e, encE c (stamp (content w) e)).

Definition saveOps (sync : bool) (w : wal) (e : entry) : list op :=
  let b := encE c (stamp (content w) e) in
  [WWrite (fdpos w) (frame b); WWrite (fdpos w + length (frame b)) (sumFrame c (raftLog w) b)] ++
  (if sync then [WSync] else []).

Lemma saveEntry_cases : forall w d j e sync ops r, goodJ w d j -> saveEntry c sync e w = (ops, r) ->
  (ops = [] /\ r = Panic) \/
  (llt w = lastTerm (logIndex w) /\ eIndex e = lli w + 1 /\ lastTerm (logIndex w) <= eTerm e /\
   (ops = saveOps sync w e /\ r = Panic /\ slot c (parRec w e) = None \/
    exists w' sl, slot c (parRec w e) = Some sl /\
     ops = saveOps sync w e ++ [PWrite (length (parlog w) * 400) sl; PSync] /\ r = Ok w' /\
     raftLog w' = raftLog w ++ [(stamp (content w) e, encE c (stamp (content w) e))] /\
     lli w' = lli w + 1 /\ llt w' = eTerm e /\ begseekpos w' = begseekpos w ++ [fdpos w] /\
     fdpos w' = (fdpos w + length (recOf w e))%nat /\ parlog w' = parlog w ++ [parRec w e] /\
     prevApplied w' = prevApplied w /\ AddTerm (logIndex w) (eTerm e) = Ok (logIndex w'))).
Proof.
  intros w d j e sync ops r G H. unfold saveEntry in H.
  destruct (content_last _ _ _ G) as [Ei Et].
  destruct (Z.eqb_spec (lli w + 1) (eIndex e)) as [E1|E1]; cbn [check bindM ret fail fst snd] in H.
  2: { injection H as <- <-. auto. }
  rewrite (lastIndex_spec _ _ (g_idx _ _ _ G)) in H. cbn [lift bindM fst snd] in H.
  destruct (Z.eqb_spec (lastTerm (logIndex w)) (llt w)) as [E2|E2]; cbn [check bindM ret fail fst snd app] in H.
  2: { injection H as <- <-. auto. }
  destruct (Z.eqb_spec (pEnd (mkPlog (BaseC (logIndex w)) 0 (terms (raftLog w)))) (lli w)) as [E3|E3]; cbn [check bindM ret fail fst snd app] in H.
  2: { injection H as <- <-. auto. }
  rewrite E3 in H.
  destruct (AddTerm (logIndex w) (eTerm e)) as [x|] eqn:Ea; cbn [lift bindM fst snd app] in H.
  2: { injection H as <- <-. auto. }
  right. pose proof (AddTerm_inv _ _ _ _ (g_idx _ _ _ G) Ea) as [_ Hl]. 
  split; [auto|]. split; [lia|].
  split. { rewrite (good_lastTerm _ _ _ G). exact Hl. }
  assert (Est : mkE (eTerm e) (eIndex e) (lli w) (lastTerm (logIndex w)) (eRest e) = stamp (content w) e).
  { unfold stamp. rewrite Ei, Et. reflexivity. }
  rewrite Est in H.
  assert (Epar : {| pOffset := Z.of_nat (fdpos w);
       pLen0 := Z.of_nat (length (frame (encE c (stamp (content w) e))));
       pLen2 := Z.of_nat (length (sumFrame c (raftLog w) (encE c (stamp (content w) e))));
       pIndex := eIndex e; pTerm := eTerm e; pRest := eRest e;
       pHash := b3 c (encE c (stamp (content w) e)) |} = parRec w e) by reflexivity.
  rewrite Epar in H. unfold append1 in H.
  destruct (slot c (parRec w e)) as [sl|] eqn:Esl; cbn [emit fail bindM ret fst snd] in H.
  - right. injection H as <- <-. eexists. exists sl. split; [reflexivity|]. split.
    { unfold saveOps. destruct sync; reflexivity. }
    split; [reflexivity|]. cbn [raftLog lli llt begseekpos fdpos parlog prevApplied logIndex].
    unfold recOf, Wal_Proofs.recB. rewrite app_length, Nat.add_assoc. auto 10.
  - left. injection H as <- <-. split; [unfold saveOps; destruct sync; reflexivity|auto].
Qed.

(** the entries, as they will be stored, have a frame *)
Fixpoint okAll (s : plain) (es : list entry) : Prop :=
  match es with [] => True | e :: r => fits (encE c (stamp s e)) /\ okAll (sAppend s e) r end.
Lemma okAll_ok : forall es s, Forall (okEntry c) es -> okAll s es.
Proof. induction es as [|e es IH]; intros s H; cbn [okAll]; [auto|]. inversion H; subst. split; auto. apply H2. Qed.

Lemma saveOps_apply : forall w d j e sync, goodJ w d j ->
  applyAll (saveOps sync w e) d = mkD (image [] (raftLog w) ++ recOf w e ++ skipn (length (recOf w e)) j) (dPar d).
Proof.
  intros w d j e sync G. unfold saveOps. rewrite applyAll_app.
  assert (E : forall d0, applyAll (if sync then [WSync] else []) d0 = d0) by (intros; destruct sync; reflexivity).
  rewrite E. unfold applyAll. cbn [fold_left apply dWal dPar]. f_equal.
  rewrite (g_wal _ _ _ G), (g_pos _ _ _ G), writeAt_exact, app_assoc, <- app_length, writeAt_exact.
  unfold recOf, Wal_Proofs.recB. rewrite app_length, skipn_skipn, <- !app_assoc. rewrite (Nat.add_comm (length (sumFrame c _ _))). reflexivity.
Qed.

Lemma saveEntry_good : forall w d j e sync ops w', goodJ w d j -> fits (encE c (stamp (content w) e)) -> saveEntry c sync e w = (ops, Ok w') ->
  goodJ w' (applyAll ops d) (skipn (length (recOf w e)) j) /\ llt w' = lastTerm (logIndex w') /\
  content w' = sAppend (content w) e.
Proof.
  intros w d j e sync ops w' G He H. 
  destruct (saveEntry_cases _ _ _ _ _ _ _ G H) as [[_ X]|(Hllt & Hidx & Hterm & [(_ & X & _)|(w'' & sl & Hsl & -> & Hw & C1 & C2 & C3 & C4 & C5 & C6 & C7 & C8)])]; try discriminate.
  injection Hw as <-. destruct (content_last _ _ _ G) as [Ei Et].
  assert (HA : CompactTerm (logIndex w) <= eTerm e) by (pose proof (g_ct _ _ _ G); lia).
  destruct (AddTerm_ok _ _ (eTerm e) (g_idx _ _ _ G) HA) as (x & Hx & HW & Hc).
  { rewrite <- (lastTerm_spec _ _ (g_idx _ _ _ G)). exact Hterm. }
  rewrite C8 in Hx. injection Hx as <-.
  assert (HB : BaseC (logIndex w') = BaseC (logIndex w)) by apply HW.
  assert (Hlt : lastTerm (logIndex w') = eTerm e).
  { rewrite (lastTerm_spec _ _ HW). cbn [pstep pTerms]. apply last_last. }
  assert (HW' : refW (logIndex w') (mkPlog (BaseC (logIndex w')) 0 (terms (raftLog w')))).
  { rewrite C1, HB. unfold terms. rewrite map_app. exact HW. }
  assert (Hlink : exists t, linked (BaseC (logIndex w)) t (raftLog w ++ [(stamp (content w) e, encE c (stamp (content w) e))])).
  { destruct (g_link _ _ _ G) as (t & Ht). 
    exists (match raftLog w with [] => CompactTerm (logIndex w) | _ => t end). apply linked_app.
    split; [destruct (raftLog w); [exact I|exact Ht]|]. cbn [Wal_Proofs.linked]. 
    unfold stamp at 1 2 3 4. cbn [ePrevIndex eIndex ePrevTerm eTerm].
    rewrite Ei, Et, (g_lli _ _ _ G).
    assert (EL : lastTerm (logIndex w) = last (terms (raftLog w)) (match raftLog w with [] => CompactTerm (logIndex w) | _ => t end)).
    { rewrite (good_lastTerm _ _ _ G). destruct (raftLog w); [reflexivity|]. apply last_def. discriminate. }
    rewrite <- EL. repeat split; auto; try lia; try apply He.
    rewrite Hidx, (g_lli _ _ _ G). reflexivity. }
  assert (Ebt : sBaseTerm (content w') = sBaseTerm (content w)).
    { unfold content. cbn [sBaseTerm]. rewrite C1.
      destruct (raftLog w) as [|[e0 b0] l] eqn:El; cbn [app]; [|reflexivity].
      unfold stamp. cbn [ePrevTerm]. rewrite Et, (good_lastTerm _ _ _ G), El. reflexivity. }
  split; [|split].
  - rewrite applyAll_app, (saveOps_apply _ _ _ _ _ G). constructor.
    + cbn [applyAll fold_left apply dWal]. rewrite C1, image_app. cbn [app Wal_Proofs.image snd].
      rewrite app_nil_r, <- !app_assoc. reflexivity.
    + unfold applyAll. cbn [fold_left apply dWal dPar]. rewrite (g_par _ _ _ G), C6.
      rewrite <- (parImage_len c ok _ (g_slot _ _ _ G)).
      pose proof (writeAt_exact (parImage (parlog w)) sl []) as X. rewrite skipn_nil, !app_nil_r in X. rewrite X.
      rewrite parImage_app. f_equal. unfold Wal_Proofs.parImage. cbn [map concat]. unfold slotB. rewrite Hsl, app_nil_r. reflexivity.
    + rewrite C6, C1, parsOf_app. rewrite <- (g_pars _ _ _ G). f_equal. cbn [Wal_Proofs.parsOf Nat.add app].
      unfold parRec. rewrite (g_pos _ _ _ G). reflexivity.
    + rewrite C6. apply Forall_app. split; [apply (g_slot _ _ _ G)|]. constructor; [|constructor].
      unfold Wal_Proofs.slotted. rewrite Hsl. discriminate.
    + rewrite HB, C1. exact Hlink.
    + exact HW'.
    + rewrite Hc, Ebt. apply (g_bt _ _ _ G).
    + rewrite Hc, Hlt. exact HA.
    + rewrite C2, HB, C1, app_length, (g_lli _ _ _ G). cbn [length]. lia.
    + rewrite C5, C1, image_app, app_length, (g_pos _ _ _ G). cbn [app Wal_Proofs.image snd]. rewrite app_nil_r. reflexivity.
  - congruence.
  - assert (Elg : sLog (content w') = sLog (content w) ++ [stamp (content w) e]).
    { unfold content at 1 2. cbn [sLog]. unfold entries. rewrite C1, map_app. reflexivity. }
    unfold sAppend. rewrite <- Ebt, <- Elg. unfold content. cbn [sBase sBaseTerm sLog]. rewrite HB. reflexivity.
Qed.

Lemma saveAll_good : forall es w d j ops w', goodJ w d j -> okAll (content w) es -> saveAll c es w = (ops, Ok w') ->
  exists n, goodJ w' (applyAll ops d) (skipn n j) /\ content w' = sAppendAll (content w) es /\
    (es <> [] -> llt w' = lastTerm (logIndex w')) /\ (llt w = lastTerm (logIndex w) -> llt w' = lastTerm (logIndex w')) /\
    fdpos w' = (fdpos w + n)%nat /\ prevApplied w' = prevApplied w /\
    exists log, raftLog w' = raftLog w ++ log /\ begseekpos w' = begseekpos w ++ offsets (fdpos w) (raftLog w) log.
Proof.
  induction es as [|e es IH]; intros w d j ops w' G Hok H; cbn [saveAll] in H.
  - apply ret_ok in H as [<- ->]. exists O. cbn [applyAll fold_left skipn]. split; [exact G|]. split; [reflexivity|].
    split; [congruence|]. split; [auto|]. split; [lia|]. split; [reflexivity|]. exists []. rewrite !app_nil_r. auto.
  - cbn [okAll] in Hok. destruct Hok as [He Hes]. mok H. subst ops.
    pose proof (saveEntry_good _ _ _ _ _ _ _ G He H0) as (G1 & L1 & C1).
    destruct (saveEntry_cases _ _ _ _ _ _ _ G H0) as [[_ X]|(_ & _ & _ & [(_ & X & _)|(w'' & sl & _ & _ & Hw & D1 & _ & _ & D4 & D5 & _ & D7 & _)])]; try discriminate.
    injection Hw as <-. rewrite <- C1 in Hes.
    destruct (IH _ _ _ _ _ G1 Hes H) as (n & A1 & A2 & A3 & A4 & A5 & A6 & log & A7 & A8).
    exists (length (recOf w e) + n)%nat. rewrite applyAll_app.
    split; [rewrite skipn_skipn, Nat.add_comm in A1; exact A1|]. split; [rewrite A2, C1; reflexivity|].
    split; [auto|]. split; [auto|]. split; [lia|]. split; [congruence|].
    exists ((stamp (content w) e, encE c (stamp (content w) e)) :: log).
    split; [rewrite A7, D1, <- app_assoc; reflexivity|].
    rewrite A8, D4, offsets_cons, <- app_assoc, D1, D5. reflexivity.
Qed.

End W.
