(** The content-addressed store: a cache that holds everything, the counts
    Append returns, and opening with VerifyData. *)
From Coq Require Import List ZArith Bool Lia Arith.
From Verif Require Import Cas_Model Cas_Spec Cas_Proofs Cas_Files Cas_Calm.
Import ListNotations.
Open Scope Z_scope.

Section M.
Context (H : bytes -> key) (enc : bytes -> bytes) (dec : bytes -> option bytes) (W : nat)
        (Okb : bytes -> Prop) (L : laws H enc dec W Okb).

Notation stp := (step H enc dec W).
Notation rn := (run H enc dec W).
Notation ent := (ent H enc).
Notation J := (J H enc Okb).
Notation Str := (Str H enc).

(** *** A cache that holds everything. *)
Definition UI (U : list bytes) (max : nat) (w : world) : Prop :=
  ~ In ODead (wLog w) /\ (forall d, given (wLog w) d -> In d U) /\
  exists s, wUp w = Some s /\ cMax s = max /\ cacheOK s /\ cWait s = [] /\
    (forall k, findMem k (cMem s) <> None <-> inIdx k (cIdx s)).

Lemma UI_step : forall U max w e,
  (length U <= max)%nat -> Forall Okb U -> Forall (fun d => d <> []) U ->
  J w -> UI U max w -> within U e -> UI U max (stp w e).
Proof.
  intros U max w e LU OU NU JW (ND & GU & s & EU & EM & CO & EW & MI) WI.
  destruct w as [data index up log]. cbn [wUp wLog] in *. subst up.
  destruct JW as (LO & SS). cbn [wData wIndex wUp wLog] in *.
  assert (GA : forall o d, (forall b, ~ In (OApp b) o) -> given (log ++ o) d -> In d U).
  { intros o d NA G. apply GU. revert G. apply given_app_inv. exact NA. }
  destruct e as [b|pick|g k|g pick|pick j m|mx vf picks]; cbn [step wUp wData wIndex wLog]; cbn [within] in WI;
    try contradiction.
  - destruct (cJob s) eqn:CJ.
    { split; [exact ND|]. split; [exact GU|]. exists s. auto. }
    split; cbn [wLog wUp]; [apply noDead_app; [exact ND|intros [E|[]]; discriminate]|].
    split.
    { intros d (b' & I1 & I2). apply in_app_or in I1 as [I1|[I1|[]]].
      - apply GU. exists b'. auto.
      - injection I1 as ->. auto. }
    eexists. split; [reflexivity|]. cbn [cMax cWait cMem cIdx]. auto.
  - destruct (appStep H enc W data pick s) as [s' ws o] eqn:A.
    destruct (cJob s) as [[[b [|d r]] n]|] eqn:CJ.
    + unfold appStep in A. rewrite CJ in A. injection A as <- <- <-.
      unfold apply_res. rewrite fold_writes. split; cbn [wLog wUp wData fst snd].
      * apply noDead_app; [exact ND|intros [E|[]]; discriminate].
      * split; [intros d; apply GA; intros b' [E|[]]; discriminate|].
        eexists. split; [reflexivity|]. cbn [cMax cWait cMem cIdx]. auto.
    + pose proof SS as (I1 & M & Wt & K & Jb). rewrite CJ in Jb. destruct Jb as (Jb1 & p & E & Jb2).
      assert (Gd : given log d) by (exists b; split; [exact Jb1|rewrite E; apply in_or_app; right; left; reflexivity]).
      assert (Od : Okb d) by (apply LO; exact Gd).
      assert (Nd : d <> []) by (rewrite Forall_forall in NU; auto).
      destruct (appStep_new _ _ _ _ _ L _ _ _ _ _ _ _ _ _ _ CJ Od A)
        as [(-> & -> & ->)|[(Xi & -> & -> & _ & ->)|(Xi & _ & -> & s1' & AM' & Y)]].
      * exfalso. unfold appStep in A. rewrite CJ in A.
        destruct d as [|x d]; [congruence|]. cbv zeta in A.
        set (dd := x :: d) in *.
        destruct (findIdx (H dd) (cIdx s)) as [e'|] eqn:F2.
        -- destruct (findMem (H dd) (cMem s)) eqn:FM; [cbn in A; discriminate|].
           apply findIdx_some in F2. apply (proj2 (MI (H dd))); [|exact FM]. exists e'. exact F2.
        -- assert (FM : findMem (H dd) (cMem s) = None).
           { destruct (findMem (H dd) (cMem s)) eqn:FM; [|reflexivity]. exfalso.
             destruct (proj1 (MI (H dd))) as (e' & Ie & Ke); [congruence|].
             exact (findIdx_none _ _ F2 _ Ie Ke). }
           rewrite FM in A. cbn [Bool.eqb negb] in A.
           destruct (addMem_fresh pick (H dd) dd s CO FM) as (s1 & AM & _). rewrite AM in A. discriminate.
      * unfold apply_res. cbn [fold_left fst snd wData wIndex wLog wUp]. rewrite app_nil_r.
        split; [exact ND|]. split; [exact GU|]. eexists. split; [reflexivity|]. auto.
      * assert (FM : findMem (H d) (cMem s) = None).
        { destruct (findMem (H d) (cMem s)) eqn:FM; [|reflexivity]. exfalso. apply Xi, MI. congruence. }
        destruct (addMem_fresh pick (H d) d s CO FM) as (s1 & AM & CO1 & MM & NF).
        rewrite AM in AM'. injection AM' as <-.
        destruct (addMem_spec _ _ _ _ _ AM) as (A1 & A2 & A3 & A4 & A5 & A6).
        assert (LT : (length (cKeys s) < length U)%nat).
        { destruct CO as (C1 & C2 & C3).
          assert (NDk : NoDup (H d :: cKeys s)) by (constructor; [rewrite C2, FM; congruence|exact C1]).
          pose proof (NoDup_incl_length NDk (l' := map H U)) as NL. rewrite map_length in NL. cbn [length] in NL.
          apply NL. intros k [<-|Ik]; [apply in_map; apply GU; exact Gd|].
          apply C2 in Ik. destruct (findMem k (cMem s)) as [dk|] eqn:Fk; [|congruence].
          apply findMem_some in Fk. destruct (M _ _ Fk) as [-> Gk]. apply in_map. apply GU. exact Gk. }
        destruct NF as (_ & NF); [lia|lia|].
        assert (EQ : exists buf, s' = Some (Cas (cIdx s ++ [ent (len data) d]) (cMem s1) (cKeys s1) (cMax s)
                    buf (Some (b, r, S n)) (cWait s))).
        { destruct Y as [(_ & _ & ->)|(_ & _ & ->)]; eexists; reflexivity. }
        destruct EQ as (buf & ->). unfold apply_res. rewrite fold_writes.
        cbn [fst snd wData wIndex wLog wUp]. rewrite app_nil_r. split; [exact ND|]. split; [exact GU|].
        eexists. split; [reflexivity|]. cbn [cMax cWait cMem cIdx].
        split; [exact EM|]. split; [unfold cacheOK in *; cbn [cKeys cMem cMax]; rewrite A2 in CO1; exact CO1|].
        split; [exact EW|]. intro k. split.
        -- intro Fk. destruct (MM k Fk) as [->|Fk'].
           ++ exists (ent (len data) d). split; [apply in_or_app; right; left; reflexivity|reflexivity].
           ++ apply inIdx_app. apply MI. exact Fk'.
        -- intros (e & Ie & Ke). apply NF. apply in_app_or in Ie as [Ie|[<-|[]]].
           ++ right. apply MI. exists e. auto.
           ++ left. symmetry. exact Ke.
    + unfold appStep in A. rewrite CJ in A. injection A as <- <- <-.
      unfold apply_res. cbn [fold_left fst snd wData wIndex wLog wUp]. rewrite app_nil_r.
      split; [exact ND|]. split; [exact GU|]. exists s. auto.
  - rewrite EW. cbn [existsb]. unfold getStep.
    destruct (findIdx k (cIdx s)) as [e|] eqn:FX.
    + destruct (findMem k (cMem s)) as [d|] eqn:FM.
      * unfold apply_res. cbn [fold_left fst snd wData wIndex wLog wUp].
        split; [apply noDead_app; [exact ND|cbn; intuition; discriminate]|].
        split; [intros d'; apply GA; cbn; intuition; discriminate|]. exists s. auto.
      * exfalso. apply findIdx_some in FX. apply (proj2 (MI k)); [exists e; exact FX|exact FM].
    + unfold apply_res. cbn [fold_left fst snd wData wIndex wLog wUp].
      split; [apply noDead_app; [exact ND|cbn; intuition; discriminate]|].
      split; [intros d'; apply GA; cbn; intuition; discriminate|]. exists s. auto.
  - unfold diskStep. rewrite EW. cbn [find].
    destruct (cJob s); unfold apply_res; cbn [fold_left fst snd wData wIndex wLog wUp]; rewrite app_nil_r;
      (split; [exact ND|]; split; [exact GU|]; exists s; auto).
Qed.

Lemma within_noOpen : forall U e, within U e -> ~ isOpen e.
Proof. intros U e WI. destruct e; cbn in *; auto. Qed.

Lemma UI_run : forall U max es w,
  (length U <= max)%nat -> Forall Okb U -> Forall (fun d => d <> []) U ->
  J w -> UI U max w -> Forall (within U) es -> UI U max (rn w es).
Proof.
  intros U max es. induction es as [|e es IH]; intros w LU OU NU JW UW WI; [exact UW|].
  inversion WI as [|? ? W1 W2]; subst. cbn [run]. apply IH; auto.
  - apply (J_step _ _ _ _ _ L); [exact JW|eapply within_noOpen; eauto|].
    intros b ->. cbn in W1. apply Forall_forall. intros d Id. rewrite Forall_forall in OU. auto.
  - apply UI_step; auto.
Qed.

(** *** Counts. *)
Lemma counts_app : forall a b, counts (a ++ b) = (counts a + counts b)%nat.
Proof. induction a as [|x a IH]; intro b; [reflexivity|]. destruct x; cbn [app counts]; rewrite ?IH; lia. Qed.

Definition KI (w : world) : Prop :=
  In ODead (wLog w) \/
  exists s, wUp w = Some s /\
    (counts (wLog w) + match cJob s with Some (_, _, n) => n | None => 0 end = length (cIdx s))%nat /\
    (forall d, given (wLog w) d -> kept (wLog w) d \/
       match cJob s with Some (b, _, _) => In d b | None => False end).

Lemma KI_step : forall w e, J w -> KI w -> ~ isOpen e -> (forall p j m, e <> EKill p j m) -> KI (stp w e).
Proof.
  intros w e JW [DE|(s & EU & CN & GK)] NO NK.
  - left. assert (MONO : forall r, In ODead (wLog (apply_res w r))) by
      (intros [s ws o]; cbn; apply in_or_app; auto).
    unfold step. destruct e; destruct (wUp w) as [s|]; auto.
    + destruct (cJob s); auto. cbn. apply in_or_app. auto.
    + destruct (existsb _ _); auto.
    + destruct (appStep H enc W (wData w) pick s). auto.
  - destruct w as [data index up log]. cbn [wUp wLog] in *. subst up.
    destruct JW as (LO & SS). cbn [wData wIndex wUp wLog] in *.
    assert (SAME : forall o s1, counts o = 0%nat -> (forall b, ~ In (OApp b) o) -> cIdx s1 = cIdx s -> cJob s1 = cJob s ->
              KI (World data index (Some s1) (log ++ o))).
    { intros o s1 Co NA E1 E2. right. exists s1. split; [reflexivity|]. cbn [wLog]. rewrite E1, E2, counts_app, Co.
      split; [lia|]. intros d G. apply given_app_inv in G; [|exact NA].
      destruct (GK d G) as [Kd|Kd]; [left; apply kept_app; exact Kd|auto]. }
    assert (SAME0 : KI (World data index (Some s) log)).
    { right. exists s. auto. }
    assert (DD : forall s1, KI (World data index s1 (log ++ [ODead])))
      by (left; cbn; apply in_or_app; right; left; reflexivity).
    destruct e as [b|pick|g k|g pick|pick j m|mx vf picks]; cbn [step wUp wData wIndex wLog].
    + destruct (cJob s) eqn:CJ; [exact SAME0|]. right. eexists. split; [reflexivity|]. cbn [wLog cJob cIdx].
      rewrite counts_app. cbn [counts]. split; [lia|].
      intros d (b' & I1 & I2). apply in_app_or in I1 as [I1|[I1|[]]].
      * left. destruct (GK d) as [Kd|[]]; [exists b'; auto|]. apply kept_app. exact Kd.
      * injection I1 as ->. auto.
    + destruct (appStep H enc W data pick s) as [s' ws o] eqn:A.
      destruct (cJob s) as [[[b [|d r]] n]|] eqn:CJ.
      * unfold appStep in A. rewrite CJ in A. injection A as <- <- <-.
        unfold apply_res. rewrite fold_writes. right. eexists. split; [reflexivity|]. cbn [wLog cJob cIdx].
        rewrite counts_app. cbn [counts]. split; [lia|].
        intros d G. apply given_app_inv in G; [|intros b' [E|[]]; discriminate].
        left. destruct (GK d G) as [Kd|Kd]; [apply kept_app; exact Kd|].
        exists b, n. split; [apply in_or_app; right; left; reflexivity|exact Kd].
      * pose proof SS as (I1 & M & Wt & K & Jb). rewrite CJ in Jb. destruct Jb as (Jb1 & p & E & Jb2).
        assert (Gd : given log d) by (exists b; split; [exact Jb1|rewrite E; apply in_or_app; right; left; reflexivity]).
        assert (Od : Okb d) by (apply LO; exact Gd).
        destruct (appStep_new _ _ _ _ _ L _ _ _ _ _ _ _ _ _ _ CJ Od A)
          as [(-> & -> & ->)|[(Xi & -> & -> & _ & ->)|(Xi & _ & -> & s1' & AM' & Y)]].
        -- apply DD.
        -- unfold apply_res. cbn [fold_left fst snd wData wIndex wLog wUp]. rewrite app_nil_r.
           right. eexists. split; [reflexivity|]. cbn [wLog cJob cIdx]. auto.
        -- assert (EQ : exists buf, s' = Some (Cas (cIdx s ++ [ent (len data) d]) (cMem s1') (cKeys s1') (cMax s)
                    buf (Some (b, r, S n)) (cWait s))).
           { destruct Y as [(_ & _ & ->)|(_ & _ & ->)]; eexists; reflexivity. }
           destruct EQ as (buf & ->). unfold apply_res. rewrite fold_writes.
           cbn [fst snd wData wIndex wLog wUp]. rewrite app_nil_r. right. eexists. split; [reflexivity|].
           cbn [wLog cJob cIdx]. rewrite app_length. cbn [length]. split; [lia|exact GK].
      * unfold appStep in A. rewrite CJ in A. injection A as <- <- <-.
        unfold apply_res. cbn [fold_left fst snd wData wIndex wLog wUp]. rewrite app_nil_r. exact SAME0.
    + destruct (existsb _ _); [exact SAME0|]. unfold getStep.
      destruct (findIdx k (cIdx s)) as [e|]; [destruct (findMem k (cMem s))|];
        unfold apply_res; cbn [fold_left fst snd wData wIndex wLog wUp]; apply SAME;
        try reflexivity; cbn; intuition; discriminate.
    + unfold diskStep.
      destruct (cJob s) eqn:CJ; [unfold apply_res; cbn [fold_left fst snd wData wIndex wLog wUp];
        rewrite app_nil_r; exact SAME0|].
      destruct (find _ (cWait s)) as [[g' e]|]; [|unfold apply_res; cbn [fold_left fst snd wData wIndex wLog wUp];
        rewrite app_nil_r; exact SAME0].
      destruct (readAt W data (eBeg e) (eClen e)) as [bb|]; [|apply DD].
      destruct (dec (skipn 64 bb)) as [d|]; [|apply DD].
      destruct (negb _); [apply DD|].
      destruct (addMem pick (eKey e) d s) as [s1|] eqn:AM; [|apply DD].
      destruct (addMem_spec _ _ _ _ _ AM) as (A1 & A2 & A3 & A4 & A5 & A6).
      unfold apply_res; cbn [fold_left fst snd wData wIndex wUp wLog]. apply SAME; auto.
      * cbn; intuition; discriminate.
      * cbn [cJob]. congruence.
    + exfalso. exact (NK _ _ _ eq_refl).
    + exfalso. apply NO. exact I.
Qed.

Lemma JSK_run : forall es w, J w -> Str w -> KI w ->
  Forall (fun e => ~ isOpen e /\ (forall p j m, e <> EKill p j m) /\ forall b, e = EApp b -> Forall Okb b) es ->
  J (rn w es) /\ Str (rn w es) /\ KI (rn w es).
Proof.
  induction es as [|e es IH]; intros w JW SW KW F; [auto|]. inversion F as [|? ? (F1 & F2 & F3) F4]; subst.
  cbn [run]. apply IH; auto.
  - apply (J_step _ _ _ _ _ L); auto.
  - apply (Str_step _ _ _ _ _ L); auto.
  - apply KI_step; auto.
Qed.

(** *** Opening with VerifyData. *)
Lemma verify_recs : forall rs done fuel picks found s,
  NoDup (done ++ rs) -> (forall d, In d (done ++ rs) -> Okb d) -> (forall d, In d rs -> enc d <> []) ->
  cIdx s = ents H enc 0 (done ++ rs) -> cacheOK s ->
  (forall k, findMem k (cMem s) <> None -> exists d, In d done /\ k = H d) ->
  (length (recs H enc rs) < fuel)%nat ->
  exists s', verify fuel picks (len (recs H enc done)) (recs H enc rs) found s
             = Some (s', (found + length rs)%nat) /\ cIdx s' = cIdx s.
Proof.
  induction rs as [|d rs IH]; intros done fuel picks found s ND OK EN CI CO MD LF;
    (destruct fuel as [|fuel]; [cbn in LF; lia|]); cbn [verify].
  - exists s. cbn. rewrite Nat.add_0_r. auto.
  - assert (Od : Okb d) by (apply OK; apply in_or_app; right; left; reflexivity).
    assert (ED : enc d <> []) by (apply EN; left; reflexivity).
    assert (RE : recs H enc (d :: rs) = hdr H enc d ++ enc d ++ recs H enc rs).
    { unfold recs. cbn [map concat]. unfold rec at 1. rewrite <- app_assoc. reflexivity. }
    assert (LE : (length (recs H enc (d :: rs)) = 64 + length (enc d) + length (recs H enc rs))%nat).
    { rewrite RE, !app_length, (hdr_length _ _ _ _ _ L). lia. }
    assert (L1 : (1 <= length (enc d))%nat) by (destruct (enc d); [congruence|cbn; lia]).
    destruct (Nat.leb_spec (length (recs H enc (d :: rs))) 64) as [X|_]; [lia|].
    rewrite RE. rewrite (unheader_hdr _ _ _ _ _ L _ _ _ Od). cbn [Cas_Proofs.ent eClen eKey].
    replace (64 + len (enc d) - 64) with (len (enc d)) by lia. rewrite <- RE.
    assert (C : (len (enc d) <? 0) || (Z.of_nat (length (recs H enc (d :: rs))) <? 64 + len (enc d)) = false).
    { unfold len. rewrite LE, orb_false_iff, !Z.ltb_ge. lia. }
    rewrite C. rewrite RE. rewrite (skipn_app_exact _ (hdr H enc d)) by apply (hdr_length _ _ _ _ _ L).
    replace (Z.to_nat (len (enc d))) with (length (enc d)) by (unfold len; lia).
    rewrite firstn_app_exact by reflexivity.
    assert (FX : findIdx (H d) (cIdx s) = Some (ent (len (recs H enc done)) d)).
    { destruct (findIdx_in (H d) (cIdx s)) as (e & F).
      { rewrite CI. apply ents_in. apply in_or_app. right. left. reflexivity. }
      rewrite F. apply findIdx_some in F as [F1 F2]. rewrite CI in F1.
      destruct (ents_at _ _ _ _ _ L _ _ F1) as (d' & r1 & r2 & E1 & E2).
      assert (d' = d).
      { apply (law_inj _ _ _ _ _ L); [apply OK; rewrite E1; apply in_or_app; right; left; reflexivity|exact Od|].
        rewrite <- F2, E2. reflexivity. }
      subst d' e. assert (r1 = done); [|subst; reflexivity].
      clear - ND E1. revert done ND E1. induction r1 as [|x r1 IH]; intros [|y done] ND E1; cbn in E1, ND; auto.
      - injection E1 as -> _. inversion ND as [|? ? N1 _]; subst. exfalso. apply N1. apply in_or_app. right. left. reflexivity.
      - injection E1 as -> E1. inversion ND as [|? ? N1 _]; subst. exfalso. apply N1.
        apply in_or_app. right. left. reflexivity.
      - injection E1 as -> E1. inversion ND as [|? ? _ N2]; subst. f_equal. apply IH; assumption. }
    rewrite FX. unfold entEq. cbn [eKey eBeg eClen eUlen Cas_Proofs.ent].
    rewrite beq_refl, !Z.eqb_refl. cbn [andb negb].
    assert (FM : findMem (H d) (cMem s) = None).
    { destruct (findMem (H d) (cMem s)) eqn:F; [|reflexivity]. exfalso.
      destruct (MD (H d)) as (d' & Id & Ek); [congruence|].
      assert (d = d') by (apply (law_inj _ _ _ _ _ L); [exact Od|apply OK; apply in_or_app; auto|exact Ek]).
      subst d'. apply NoDup_remove_2 in ND. apply ND. apply in_or_app. auto. }
    destruct (addMem_fresh (picks found) (H d) (enc d) s CO FM) as (s1 & AM & CO1 & MM & _).
    rewrite AM. destruct (addMem_spec _ _ _ _ _ AM) as (A1 & _).
    replace (skipn (64 + length (enc d)) (hdr H enc d ++ enc d ++ recs H enc rs)) with (recs H enc rs).
    2:{ rewrite app_assoc. symmetry. apply skipn_app_exact.
        rewrite app_length, (hdr_length _ _ _ _ _ L). lia. }
    replace (len (recs H enc done) + (64 + len (enc d))) with (len (recs H enc (done ++ [d]))).
    2:{ rewrite recs_app. unfold recs at 2. cbn [map concat]. unfold len.
        rewrite !app_length, (rec_length _ _ _ _ _ L). cbn [length]. lia. }
    destruct (IH (done ++ [d]) fuel picks (S found) s1) as (s' & E1 & E2).
    + rewrite <- app_assoc. exact ND.
    + intros x Ix. rewrite <- app_assoc in Ix. auto.
    + intros x Ix. apply EN. right. exact Ix.
    + rewrite A1, CI, <- app_assoc. reflexivity.
    + exact CO1.
    + intros k Fk. destruct (MM k Fk) as [->|Fk'].
      * exists d. split; [apply in_or_app; right; left; reflexivity|reflexivity].
      * destruct (MD k Fk') as (d' & Id & ->). exists d'. split; [apply in_or_app; auto|reflexivity].
    + lia.
    + exists s'. split; [|congruence]. rewrite E1. do 2 f_equal. cbn [length]. lia.
Qed.

Lemma verify_open : forall max picks data index log,
  logOK H Okb log -> downS H enc data index log -> inStep (World data index None log) ->
  (forall d, given log d -> enc d <> []) ->
  exists s, openStep max true picks data index = Res (Some s) [] [OOpen].
Proof.
  intros max picks data index log LO DS (M & SZ) EN. cbn [wData wIndex] in *.
  destruct (open_whole _ _ _ _ _ L max data index log (proj2 (proj2 LO)) DS M)
    as (rs & tail & D & X & ND & K & G & LI).
  rewrite X, (hdrs_length _ _ _ _ _ L), div64, (sumSizes_hdrs _ _ _ _ _ L), D in SZ by (intros; apply LO; auto).
  unfold len in SZ. apply Nat2Z.inj in SZ. symmetry in SZ. apply app_len_inv in SZ. subst tail.
  rewrite app_nil_r in D. unfold openStep. rewrite LI. unfold verifyData.
  assert (C : negb (Nat.eqb (length data) 0) && Nat.ltb (length data) 64 = false).
  { rewrite D. destruct rs as [|d rs]; [reflexivity|]. unfold recs. cbn [map concat].
    rewrite app_length, (rec_length _ _ _ _ _ L). apply andb_false_iff. right. apply Nat.ltb_ge. lia. }
  rewrite C.
  destruct (verify_recs rs [] (S (length data)) picks 0 (Cas (ents H enc 0 rs) [] [] max [] None [])) as (s' & E & _).
  - exact ND.
  - intros d Id. apply LO. auto.
  - intros d Id. apply EN. auto.
  - reflexivity.
  - unfold cacheOK. cbn. split; [constructor|]. split; [|lia]. intro k.
    split; [intros []|intro F; exfalso; apply F; reflexivity].
  - intros k F. exfalso. apply F. reflexivity.
  - rewrite D. lia.
  - change (len (recs H enc [])) with 0 in E. rewrite <- D in E. rewrite E.
    rewrite X, (hdrs_length _ _ _ _ _ L), div64. cbn [Nat.add]. rewrite Nat.eqb_refl. eauto.
Qed.

End M.
