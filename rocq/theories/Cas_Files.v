(** The two files of the content-addressed store: how they relate to each
    other in a running store, after a crash, and what opening them gives. *)
From Coq Require Import List ZArith Bool Lia Arith.
From Verif Require Import Cas_Model Cas_Spec Cas_Proofs.
Import ListNotations.
Open Scope Z_scope.

Section F.
Context (H : bytes -> key) (enc : bytes -> bytes) (dec : bytes -> option bytes) (W : nat)
        (Okb : bytes -> Prop) (L : laws H enc dec W Okb).

Notation stp := (step H enc dec W).
Notation rn := (run H enc dec W).
Notation ent := (ent H enc).
Notation hdr := (hdr H enc).
Notation rec := (rec H enc).
Notation J := (J H enc Okb).

Definition recs (rs : list bytes) : bytes := concat (map rec rs).
Definition hdrs (rs : list bytes) : bytes := concat (map hdr rs).

Fixpoint ents (beg : Z) (rs : list bytes) : list entry :=
  match rs with
  | [] => []
  | d :: r => ent beg d :: ents (beg + (64 + len (enc d))) r
  end.

Lemma recs_app : forall a b, recs (a ++ b) = recs a ++ recs b.
Proof. intros. unfold recs. rewrite map_app, concat_app. reflexivity. Qed.

Lemma hdrs_app : forall a b, hdrs (a ++ b) = hdrs a ++ hdrs b.
Proof. intros. unfold hdrs. rewrite map_app, concat_app. reflexivity. Qed.

Lemma hdrs_length : forall rs, length (hdrs rs) = (64 * length rs)%nat.
Proof.
  induction rs as [|d rs IH]; [reflexivity|]. unfold hdrs in *. cbn [map concat].
  rewrite app_length, IH, (hdr_length _ _ _ _ _ L). cbn [length]. lia.
Qed.

Lemma ents_app : forall a b beg, ents beg (a ++ b) = ents beg a ++ ents (beg + len (recs a)) b.
Proof.
  induction a as [|d a IH]; intros b beg.
  - cbn. rewrite Z.add_0_r. reflexivity.
  - cbn [app ents]. rewrite IH. do 3 f_equal. unfold recs, len. cbn [map concat].
    rewrite app_length, (rec_length _ _ _ _ _ L). lia.
Qed.

Lemma ents_key : forall rs beg e, In e (ents beg rs) -> exists d, In d rs /\ eKey e = H d.
Proof.
  induction rs as [|d rs IH]; intros beg e; [intros []|]. cbn [ents]. intros [<-|I1].
  - exists d. split; [left; reflexivity|reflexivity].
  - destruct (IH _ _ I1) as (d' & I2 & E). exists d'. split; [right; exact I2|exact E].
Qed.

Lemma ents_in : forall rs beg d, In d rs -> inIdx (H d) (ents beg rs).
Proof.
  induction rs as [|d0 rs IH]; intros beg d; [intros []|]. cbn [ents]. intros [->|I1].
  - exists (ent beg d). split; [left; reflexivity|reflexivity].
  - destruct (IH (beg + (64 + len (enc d0))) d I1) as (e & I2 & E). exists e. split; [right; exact I2|exact E].
Qed.

Lemma ents_at : forall rs e, In e (ents 0 rs) ->
  exists d r1 r2, rs = r1 ++ d :: r2 /\ e = ent (len (recs r1)) d.
Proof.
  intros rs. assert (G : forall rs beg e, In e (ents beg rs) ->
    exists d r1 r2, rs = r1 ++ d :: r2 /\ e = ent (beg + len (recs r1)) d).
  { induction rs0 as [|d rs0 IH]; intros beg e; [intros []|]. cbn [ents]. intros [<-|I1].
    - exists d, [], rs0. cbn. rewrite Z.add_0_r. auto.
    - destruct (IH _ _ I1) as (d' & r1 & r2 & E1 & E2). exists d', (d :: r1), r2.
      split; [rewrite E1; reflexivity|]. rewrite E2. f_equal. unfold recs, len. cbn [map concat].
      rewrite app_length, (rec_length _ _ _ _ _ L). lia. }
  intros e I1. destruct (G _ _ _ I1) as (d & r1 & r2 & E1 & E2). eauto.
Qed.

(** *** Loading the index. *)
Lemma loadIdx_hdrs : forall rs done beg,
  NoDup (done ++ rs) -> (forall d, In d (done ++ rs) -> Okb d) ->
  forall acc, (forall e, In e acc -> exists d, In d done /\ eKey e = H d) ->
  loadIdx (length rs) beg (hdrs rs) acc = Some (acc ++ ents beg rs).
Proof.
  induction rs as [|d rs IH]; intros done beg ND OK acc A.
  - cbn. rewrite app_nil_r. reflexivity.
  - cbn [length loadIdx]. unfold hdrs. cbn [map concat].
    assert (Od : Okb d) by (apply OK; apply in_or_app; right; left; reflexivity).
    rewrite (unheader_hdr _ _ _ _ _ L _ _ _ Od).
    assert (F : findIdx (eKey (ent beg d)) acc = None).
    { destruct (findIdx _ acc) as [e|] eqn:F; [|reflexivity]. exfalso.
      apply findIdx_some in F as [F1 F2]. destruct (A e F1) as (d' & I1 & E). cbn [Cas_Proofs.ent eKey] in F2.
      assert (d' = d).
      { apply (law_inj _ _ _ _ _ L); [apply OK; apply in_or_app; auto|exact Od|congruence]. }
      subst d'. apply NoDup_remove_2 in ND. apply ND. apply in_or_app. auto. }
    rewrite F. rewrite skipn_app_exact by apply (hdr_length _ _ _ _ _ L).
    fold (hdrs rs). rewrite (IH (done ++ [d])).
    + cbn [Cas_Proofs.ent eClen ents]. rewrite <- app_assoc. reflexivity.
    + rewrite <- app_assoc. exact ND.
    + intros x Ix. rewrite <- app_assoc in Ix. auto.
    + intros e Ie. apply in_app_or in Ie as [Ie|[<-|[]]].
      * destruct (A e Ie) as (d' & I1 & E). exists d'. split; [apply in_or_app; auto|exact E].
      * exists d. split; [apply in_or_app; right; left; reflexivity|reflexivity].
Qed.

Lemma mul64 : forall n, ((64 * n) mod 64 = 0)%nat.
Proof. intro n. rewrite Nat.mul_comm. apply Nat.mod_mul. lia. Qed.

Lemma div64 : forall n, ((64 * n) / 64 = n)%nat.
Proof. intro n. rewrite Nat.mul_comm. apply Nat.div_mul. lia. Qed.

Lemma loadIndex_hdrs : forall max rs, NoDup rs -> (forall d, In d rs -> Okb d) ->
  loadIndex max (hdrs rs) = Some (Cas (ents 0 rs) [] [] max [] None []).
Proof.
  intros max rs ND OK. unfold loadIndex. rewrite hdrs_length, mul64, div64.
  cbn [Nat.eqb negb]. rewrite (loadIdx_hdrs rs [] 0 ND OK []); [reflexivity|intros e []].
Qed.

Lemma sumSizes_hdrs : forall rs, (forall d, In d rs -> Okb d) ->
  sumSizes (length rs) (hdrs rs) = len (recs rs).
Proof.
  induction rs as [|d rs IH]; intros OK; [reflexivity|].
  cbn [length sumSizes]. unfold hdrs. cbn [map concat].
  assert (Od : Okb d) by (apply OK; left; reflexivity).
  rewrite (hdr_56 _ _ _ _ _ L). destruct (okb_range _ _ _ _ _ L d Od) as [R1 R2].
  rewrite to_from32 by lia. rewrite skipn_app_exact by apply (hdr_length _ _ _ _ _ L).
  fold (hdrs rs). rewrite IH by (intros; apply OK; right; assumption).
  unfold recs, len. cbn [map concat]. rewrite app_length, (rec_length _ _ _ _ _ L). lia.
Qed.

(** *** The files of a running store, and of one that died. *)
Definition upS (data index : bytes) (s : cas) (log : list obs) : Prop :=
  exists rs1 rs2,
    data = recs (rs1 ++ rs2) /\ index = hdrs rs1 /\ cBuf s = hdrs rs2 /\
    cIdx s = ents 0 (rs1 ++ rs2) /\ NoDup (rs1 ++ rs2) /\
    (forall d, kept log d -> In d rs1) /\
    (forall d, In d (rs1 ++ rs2) -> given log d) /\
    (cJob s = None -> rs2 = []).

Definition downS (data index : bytes) (log : list obs) : Prop :=
  exists rs tail torn,
    data = recs rs ++ tail /\ index = hdrs rs ++ torn /\ (length torn < 64)%nat /\
    NoDup rs /\ (forall d, kept log d -> In d rs) /\ (forall d, In d rs -> given log d).

Definition Str (w : world) : Prop :=
  match wUp w with
  | Some s => upS (wData w) (wIndex w) s (wLog w)
  | None => downS (wData w) (wIndex w) (wLog w)
  end.

Lemma NoDup_left : forall (A : Type) (a b : list A), NoDup (a ++ b) -> NoDup a.
Proof.
  induction a as [|x a IH]; intros b N; [constructor|]. cbn in N. inversion N as [|? ? N1 N2]; subst.
  constructor; [intro I1; apply N1; apply in_or_app; auto|eauto].
Qed.

Lemma firstn_hdrs : forall rs n, exists r1 r2 torn, rs = r1 ++ r2 /\
  firstn n (hdrs rs) = hdrs r1 ++ torn /\ (length torn < 64)%nat.
Proof.
  induction rs as [|d rs IH]; intro n.
  - exists [], [], []. cbn. rewrite firstn_nil. repeat apply conj; auto. lia.
  - unfold hdrs. cbn [map concat]. fold (hdrs rs).
    destruct (le_lt_dec 64 n) as [LE|LT].
    + destruct (IH (n - 64)%nat) as (r1 & r2 & torn & E1 & E2 & E3).
      exists (d :: r1), r2, torn. repeat apply conj; [rewrite E1; reflexivity| |exact E3].
      rewrite firstn_app, (hdr_length _ _ _ _ _ L), E2, firstn_all2
        by (rewrite (hdr_length _ _ _ _ _ L); lia).
      cbn [map concat]. fold (hdrs r1). rewrite app_assoc. reflexivity.
    + exists [], (d :: rs), (firstn n (hdr d)). repeat apply conj; [reflexivity| |].
      * rewrite firstn_app, (hdr_length _ _ _ _ _ L). replace (n - 64)%nat with O by lia.
        cbn. apply app_nil_r.
      * rewrite firstn_length. lia.
Qed.

(** Whatever part of the writes a process that dies has done. *)
Lemma down_cut : forall data index s log log' ext n,
  upS data index s log ->
  (forall d, kept log' d -> kept log d) -> (forall d, given log d -> given log' d) ->
  downS (data ++ ext) (index ++ firstn n (cBuf s)) log'.
Proof.
  intros data index s log log' ext n (rs1 & rs2 & D & X & B & C & ND & K & G & _) KK GG.
  destruct (firstn_hdrs rs2 n) as (r1 & r2 & torn & E1 & E2 & E3).
  exists (rs1 ++ r1), (recs r2 ++ ext), torn. subst rs2. repeat apply conj.
  - rewrite D, !recs_app, <- !app_assoc. reflexivity.
  - rewrite X, B, E2, hdrs_app, app_assoc. reflexivity.
  - exact E3.
  - rewrite app_assoc in ND. apply NoDup_left in ND. exact ND.
  - intros d Kd. apply in_or_app. left. auto.
  - intros d Id. apply GG, G. rewrite app_assoc. apply in_or_app. auto.
Qed.

Lemma cut_index : forall j m ws buf,
  ws = [] \/ ws = [WI buf] \/ (exists a b, ws = [WI buf; WD a; WD b]) \/ (exists a b, ws = [WD a; WD b]) ->
  exists n ext, forall data index,
    fold_left doWrite (cutWrites j m ws) (data, index) = (data ++ ext, index ++ firstn n buf).
Proof.
  intros j m ws buf C.
  assert (G : exists n, concat (map (fun w => match w with WI b => b | WD _ => [] end) (cutWrites j m ws))
                        = firstn n buf).
  { destruct C as [->|[->|[(a & b & ->)|(a & b & ->)]]]; unfold cutWrites.
    - exists O. destruct j; reflexivity.
    - destruct j as [|j].
      + exists m. cbn. apply app_nil_r.
      + exists (length buf). rewrite firstn_all. destruct j; cbn; apply app_nil_r.
    - destruct j as [|j].
      + exists m. cbn. apply app_nil_r.
      + exists (length buf). rewrite firstn_all. destruct j as [|[|[|j]]]; cbn; apply app_nil_r.
    - exists O. destruct j as [|[|[|j]]]; reflexivity. }
  destruct G as (n & G). exists n. eexists. intros data index. rewrite fold_writes, G. reflexivity.
Qed.

Lemma appStep_ws : forall data pick s s' ws o, appStep H enc W data pick s = Res s' ws o ->
  ws = [] \/ ws = [WI (cBuf s)] \/ (exists a b, ws = [WI (cBuf s); WD a; WD b]) \/
  (exists a b, ws = [WD a; WD b]).
Proof.
  intros data pick s s' ws o. unfold appStep.
  destruct (cJob s) as [[[b [|d r]] n]|]; [| |intro E; injection E as <- <- <-; auto].
  - intro E. injection E as <- <- <-. destruct (cBuf s); auto.
  - destruct d as [|x d]; [intro E; injection E as <- <- <-; auto|]. cbv zeta.
    destruct (negb _); [intro E; injection E as <- <- <-; auto|].
    destruct (findMem _ (cMem s)); [intro E; injection E as <- <- <-; auto|].
    destruct (addMem _ _ _ s) as [s1|] eqn:A; [|intro E; injection E as <- <- <-; auto].
    destruct (addMem_spec _ _ _ _ _ A) as (_ & _ & E3 & _). rewrite E3.
    destruct (Nat.ltb _ _); intro E; injection E as <- <- <-; cbn [app]; eauto 8.
Qed.

(** A step that changes neither files, index, buffer nor Append. *)
Lemma up_same : forall data index s s' log o, upS data index s log ->
  cIdx s' = cIdx s -> cBuf s' = cBuf s -> (cJob s' = None -> cJob s = None) ->
  (forall d, kept (log ++ o) d -> kept log d) ->
  upS data index s' (log ++ o).
Proof.
  intros data index s s' log o (rs1 & rs2 & D & X & B & C & ND & K & G & Z) E1 E2 E3 KK.
  exists rs1, rs2. rewrite E1, E2. repeat (apply conj; [solve [auto]|]).
  apply conj; [intros d Id; apply given_app; auto|auto].
Qed.

Lemma up_dead : forall data index s log, upS data index s log -> downS data index (log ++ [ODead]).
Proof.
  intros data index s log U.
  pose proof (down_cut data index s log (log ++ [ODead]) [] 0 U) as D.
  cbn [firstn] in D. rewrite !app_nil_r in D. apply D.
  - apply kept_noDone. apply one_noDone. exact I.
  - intros d. apply given_app.
Qed.

Lemma hdrs_nil : forall rs, hdrs rs = [] -> rs = [].
Proof.
  intros [|d rs] E; [reflexivity|]. apply (f_equal (@length Z)) in E. rewrite hdrs_length in E.
  cbn in E. lia.
Qed.

Lemma Str_step : forall w e, J w -> Str w -> ~ isOpen e -> (forall b, e = EApp b -> Forall Okb b) ->
  Str (stp w e).
Proof.
  intros w e JW SW NO OB. destruct w as [data index up log].
  unfold Str in *. cbn [wData wIndex wUp wLog] in *.
  destruct up as [s|]; [|destruct e; try exact SW; exfalso; apply NO; exact I].
  destruct JW as (LO & SS). cbn [wData wIndex wUp wLog] in *.
  assert (ND1 : forall o, match o with ODone _ _ => False | _ => True end ->
            forall d, kept (log ++ [o]) d -> kept log d)
    by (intros o No; apply kept_noDone; apply one_noDone; exact No).
  assert (ND0 : forall d, kept (log ++ []) d -> kept log d) by (intro d; rewrite app_nil_r; auto).
  destruct e as [b|pick|g k|g pick|pick j m|mx vf picks]; cbn [step wUp wData wIndex wLog].
  - destruct (cJob s) eqn:CJ; [exact SW|]. cbn [wData wIndex wUp wLog].
    eapply up_same; [exact SW|reflexivity|reflexivity|discriminate|apply ND1; exact I].
  - destruct (appStep H enc W data pick s) as [s' ws o] eqn:A.
    destruct (cJob s) as [[[b [|d r]] n]|] eqn:CJ.
    + unfold appStep in A. rewrite CJ in A. injection A as <- <- <-.
      destruct SW as (rs1 & rs2 & D & X & B & C & ND & K & G & Z).
      unfold apply_res. rewrite fold_writes. cbn [wData wIndex wUp wLog fst snd].
      exists (rs1 ++ rs2), []. rewrite !app_nil_r. cbn [cBuf cIdx cJob].
      assert (DE : concat (map (fun w => match w with WD b0 => b0 | WI _ => [] end)
                    (match cBuf s with [] => [] | _ => [WI (cBuf s)] end)) = [])
        by (destruct (cBuf s); reflexivity).
      assert (IE : concat (map (fun w => match w with WI b0 => b0 | WD _ => [] end)
                    (match cBuf s with [] => [] | _ => [WI (cBuf s)] end)) = cBuf s)
        by (destruct (cBuf s); cbn; rewrite ?app_nil_r; reflexivity).
      rewrite DE, IE, app_nil_r. repeat (apply conj; [first [assumption | reflexivity |
        rewrite X, B, hdrs_app; reflexivity]|]).
      split; [|split; [intros d Id; apply given_app; auto|reflexivity]].
      intros d (b' & n' & Ib & Id). apply in_app_or in Ib as [Ib|[Ib|[]]].
      * apply in_or_app. left. apply K. exists b', n'. auto.
      * injection Ib as -> ->. destruct SS as (_ & _ & _ & _ & Jb). rewrite CJ in Jb.
        destruct Jb as (Jb1 & p & E & Jb2). rewrite app_nil_r in E. subst p.
        destruct (Jb2 d Id) as (e & Ie & Ke). rewrite C in Ie. apply ents_key in Ie as (d' & Id' & Ke').
        assert (d' = d); [|subst; exact Id'].
        apply (law_inj _ _ _ _ _ L); [apply LO; auto|apply LO; exists b'; auto|congruence].
    + destruct SS as (_ & _ & _ & _ & Jb). rewrite CJ in Jb. destruct Jb as (Jb1 & p & E & Jb2).
      assert (Gd : given log d) by (exists b; split; [exact Jb1|rewrite E; apply in_or_app; right; left; reflexivity]).
      assert (Od : Okb d) by (apply LO; exact Gd).
      destruct (appStep_new _ _ _ _ _ L _ _ _ _ _ _ _ _ _ _ CJ Od A)
        as [(-> & -> & ->)|[(Xi & -> & -> & _ & ->)|(Xi & _ & -> & s1 & AM & Y)]].
      * unfold apply_res. cbn [fold_left fst snd wData wIndex wUp wLog]. eapply up_dead. exact SW.
      * unfold apply_res. cbn [fold_left fst snd wData wIndex wUp wLog].
        eapply up_same; [exact SW|reflexivity|reflexivity|discriminate|exact ND0].
      * destruct SW as (rs1 & rs2 & D & X & B & C & ND & K & G & Z).
        assert (NI : ~ In d (rs1 ++ rs2)).
        { intro Id. apply Xi. rewrite C. apply ents_in. exact Id. }
        assert (ND' : NoDup ((rs1 ++ rs2) ++ [d])).
        { apply NoDup_Add with (a := d) (l := rs1 ++ rs2); [|split; assumption].
          pose proof (Add_app d (rs1 ++ rs2) []) as AA. rewrite app_nil_r in AA. exact AA. }
        assert (G' : forall x, In x ((rs1 ++ rs2) ++ [d]) -> given log x).
        { intros x Ix. apply in_app_or in Ix as [Ix|[<-|[]]]; auto. }
        assert (D' : recs ((rs1 ++ rs2) ++ [d]) = data ++ rec d).
        { rewrite recs_app, D. f_equal. unfold recs. cbn [map concat]. apply app_nil_r. }
        assert (C' : ents 0 ((rs1 ++ rs2) ++ [d]) = cIdx s ++ [ent (len data) d]).
        { rewrite ents_app, C. cbn [ents]. rewrite D. reflexivity. }
        unfold apply_res. rewrite fold_writes.
        destruct Y as [(_ & -> & ->)|(_ & -> & ->)]; cbn [map concat app fst snd wData wIndex wUp wLog];
          rewrite ?app_nil_r.
        -- exists (rs1 ++ rs2), [d]. cbn [cBuf cIdx cJob]. rewrite D', C'.
           repeat (apply conj; [first [assumption | reflexivity | rewrite X, B, hdrs_app; reflexivity
             | unfold hdrs; cbn [map concat]; rewrite app_nil_r; reflexivity]|]).
           split; [intros x Kx; apply in_or_app; left; auto|]. split; [exact G'|discriminate].
        -- exists rs1, (rs2 ++ [d]). cbn [cBuf cIdx cJob]. rewrite (app_assoc rs1 rs2 [d]), D', C'.
           repeat (apply conj; [first [assumption | reflexivity
             | rewrite hdrs_app, B; unfold hdrs at 3; cbn [map concat]; rewrite app_nil_r; reflexivity]|]).
           discriminate.
    + unfold appStep in A. rewrite CJ in A. injection A as <- <- <-.
      unfold apply_res. cbn. rewrite app_nil_r. exact SW.
  - assert (ND2 : forall r d, kept (log ++ [OAsk g k; OGot g k r]) d -> kept log d).
    { intro r. apply kept_noDone. intros b n [E|[E|[]]]; discriminate. }
    destruct (existsb _ (cWait s)); [exact SW|].
    unfold getStep. destruct (findIdx k (cIdx s)) as [e|]; [destruct (findMem k (cMem s))|];
      unfold apply_res; cbn [fold_left fst snd wData wIndex wUp wLog];
      (eapply up_same; [exact SW|reflexivity|reflexivity|auto|]); [apply ND2|apply ND1; exact I|apply ND2].
  - assert (DD : downS data index (log ++ [ODead])) by (eapply up_dead; exact SW).
    unfold diskStep.
    destruct (cJob s) eqn:CJ; [unfold apply_res; cbn; rewrite app_nil_r; exact SW|].
    destruct (find _ (cWait s)) as [[g' e]|] eqn:FW; [|unfold apply_res; cbn; rewrite app_nil_r; exact SW].
    destruct (readAt W data (eBeg e) (eClen e)) as [bb|]; [|exact DD].
    destruct (dec (skipn 64 bb)) as [d|]; [|exact DD].
    destruct (negb _); [exact DD|].
    destruct (addMem pick (eKey e) d s) as [s1|] eqn:AM; [|exact DD].
    destruct (addMem_spec _ _ _ _ _ AM) as (A1 & A2 & A3 & A4 & A5 & A6).
    unfold apply_res; cbn [fold_left fst snd wData wIndex wUp wLog].
    eapply up_same; [exact SW|exact A1|exact A3|cbn [cJob]; rewrite A4; auto|apply ND1; exact I].
  - destruct (appStep H enc W data pick s) as [s' ws o] eqn:A.
    destruct (cut_index j m ws (cBuf s) (appStep_ws _ _ _ _ _ _ A)) as (n & ext & F).
    unfold apply_res. cbn [wData wIndex wUp wLog]. rewrite F. cbn [fst snd].
    eapply down_cut; [exact SW|apply ND1; exact I|intros d; apply given_app].
  - exfalso. apply NO. exact I.
Qed.

(** *** Opening. *)
Lemma app_len_inv : forall (A : Type) (a b : list A), length (a ++ b) = length a -> b = [].
Proof. intros A a [|x b] E; [reflexivity|]. rewrite app_length in E. cbn in E. lia. Qed.

Lemma torn_mod : forall rs torn, (length torn < 64)%nat ->
  (length (hdrs rs ++ torn) mod 64 = length torn)%nat /\ (length (hdrs rs ++ torn) / 64 = length rs)%nat.
Proof.
  intros rs torn LT. rewrite app_length, hdrs_length.
  replace (64 * length rs + length torn)%nat with (length torn + length rs * 64)%nat by lia.
  rewrite Nat.mod_add, Nat.div_add by lia. rewrite Nat.mod_small, Nat.div_small by lia. lia.
Qed.

Lemma open_torn : forall max vf picks data index log, downS data index log ->
  (length index mod 64 <> 0)%nat -> openStep max vf picks data index = Res None [] [ODead].
Proof.
  intros max vf picks data index log _ T. unfold openStep, loadIndex.
  destruct (Nat.eqb_spec (length index mod 64) 0); [contradiction|]. reflexivity.
Qed.

Lemma open_whole : forall max data index log, (forall d, given log d -> Okb d) ->
  downS data index log -> (length index mod 64 = 0)%nat ->
  exists rs tail, data = recs rs ++ tail /\ index = hdrs rs /\ NoDup rs /\
    (forall d, kept log d -> In d rs) /\ (forall d, In d rs -> given log d) /\
    loadIndex max index = Some (Cas (ents 0 rs) [] [] max [] None []).
Proof.
  intros max data index log GO (rs & tail & torn & D & X & LT & ND & K & G) M.
  rewrite X in M. destruct (torn_mod rs torn LT) as [T1 T2]. rewrite T1 in M.
  destruct torn; [|discriminate]. rewrite app_nil_r in X. exists rs, tail.
  repeat (apply conj; [assumption|]). rewrite X. apply loadIndex_hdrs; auto.
Qed.

Lemma open_J : forall max picks data index log,
  logOK H Okb log -> downS data index log ->
  J (stp (World data index None log) (EOpen max false picks)).
Proof.
  intros max picks data index log LO DS. cbn [step wUp wData wIndex].
  destruct (Nat.eq_dec (length index mod 64) 0) as [M|M].
  - destruct (open_whole max data index log (proj2 (proj2 LO)) DS M) as (rs & tail & D & X & ND & K & G & LI).
    unfold openStep. rewrite LI. unfold apply_res. cbn [fold_left fst snd wData wIndex wUp wLog].
    split; cbn [wLog wUp wData]; [apply logOK_snoc; [exact LO|exact I]|].
    apply sess_log; [|apply kept_noDone; apply one_noDone; exact I].
    sp5; cbn [cIdx cMem cWait cJob]; try contradiction; try exact I.
    + intros e Ie. destruct (ents_at _ _ Ie) as (d & r1 & r2 & E1 & E2). exists d.
      split; [rewrite E2; reflexivity|]. split; [apply G; rewrite E1; apply in_or_app; right; left; reflexivity|].
      exists (recs r1), (recs r2 ++ tail). split; [|rewrite E2; reflexivity].
      rewrite D, E1, recs_app. unfold recs. cbn [map concat]. rewrite <- !app_assoc. reflexivity.
    + intros d Kd. apply ents_in. auto.
  - rewrite (open_torn _ _ _ _ _ _ DS M). apply (J_dead H enc Okb (World data index None log)); [auto|]. split; [exact LO|exact I].
Qed.

Lemma open_Str : forall max picks data index log,
  logOK H Okb log -> downS data index log -> inStep (World data index None log) ->
  Str (stp (World data index None log) (EOpen max false picks)).
Proof.
  intros max picks data index log LO DS (M & SZ). cbn [wData wIndex] in *. cbn [step wUp wData wIndex].
  destruct (open_whole max data index log (proj2 (proj2 LO)) DS M) as (rs & tail & D & X & ND & K & G & LI).
  rewrite X, hdrs_length, div64, sumSizes_hdrs, D in SZ by (intros; apply LO; auto).
  unfold len in SZ. apply Nat2Z.inj in SZ. symmetry in SZ. apply app_len_inv in SZ. subst tail.
  rewrite app_nil_r in D.
  unfold openStep. rewrite LI. unfold apply_res. cbn [fold_left fst snd wData wIndex wUp wLog].
  unfold Str. cbn [wData wIndex wUp wLog]. exists rs, []. rewrite !app_nil_r. cbn [cBuf cIdx cJob].
  repeat (apply conj; [first [assumption|reflexivity]|]).
  split; [|split; [intros d Id; apply given_app; auto|reflexivity]].
  intros d Kd. apply K. revert d Kd. apply kept_noDone. apply one_noDone. exact I.
Qed.

Lemma J_run : forall es w, J w -> Forall (fun e => ~ isOpen e) es -> okrun stp Okb w es -> J (rn w es).
Proof.
  induction es as [|e es IH]; intros w JW NO OK; [exact JW|]. cbn [run]. inversion NO as [|? ? N1 N2]; subst.
  destruct OK as [O1 O2]. apply IH; [|assumption|assumption]. apply (J_step _ _ _ _ _ L); auto.
  intros b ->. exact O1.
Qed.

Lemma run_J : forall es w, J w -> Str w -> okrun stp Okb w es -> J (rn w es).
Proof.
  induction es as [|e es IH]; intros w JW SW OK; [exact JW|]. cbn [run]. destruct OK as [O1 O2].
  destruct e as [b|pick|g k|g pick|pick j m|mx vf picks];
    try (apply IH; [apply (J_step _ _ _ _ _ L); auto; congruence
                   |apply Str_step; auto; congruence|assumption]).
  - destruct O1 as [-> O1]. destruct w as [data index [s|] log].
    + cbn [step wUp] in *. apply IH; assumption.
    + destruct JW as (LO & _). cbn [wLog wUp] in *. destruct (O1 eq_refl) as [ST|NO].
      * apply IH; [apply open_J; assumption|apply open_Str; assumption|assumption].
      * apply J_run; [apply open_J; assumption|exact NO|exact O2].
Qed.

Lemma J_blank : J blank.
Proof.
  split; [|exact I]. repeat apply conj.
  - intros l1 g k d l2 E. destruct l1; discriminate.
  - intros l1 g k l2 d E. destruct l1; discriminate.
  - intros d (b & [] & _).
Qed.

Lemma Str_blank : Str blank.
Proof.
  exists [], [], []. cbn [wData wIndex blank recs hdrs map concat app length].
  repeat (apply conj; [first [reflexivity | lia | constructor]|]).
  split; [intros d (b & n & [] & _)|intros d []].
Qed.

End F.
