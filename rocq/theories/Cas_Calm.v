(** When the content-addressed store does not panic. *)
From Coq Require Import List ZArith Bool Lia Arith.
From Verif Require Import Cas_Model Cas_Spec Cas_Proofs Cas_Files.
Import ListNotations.
Open Scope Z_scope.

(** The cache: every key in memkeys is in the map once, and the other way
    round. *)
Definition cacheOK (s : cas) : Prop :=
  NoDup (cKeys s) /\ (forall k, In k (cKeys s) <-> findMem k (cMem s) <> None) /\
  (length (cKeys s) <= cMax s)%nat.

Lemma find_cons_mem : forall k k' d l, findMem k ((k', d) :: l) = if beq k k' then Some d else findMem k l.
Proof. intros. unfold findMem. cbn [find fst]. destruct (beq k k'); reflexivity. Qed.

Lemma findMem_del : forall v k l, findMem k (delMem v l) = if beq v k then None else findMem k l.
Proof.
  intros v k l. induction l as [|[k' d] l IH].
  - destruct (beq v k); reflexivity.
  - unfold delMem in *. cbn [filter fst]. destruct (beq v k') eqn:E1; cbn [negb].
    + rewrite IH. apply beq_eq in E1. subst k'. destruct (beq v k) eqn:E2; [reflexivity|].
      rewrite find_cons_mem. destruct (beq k v) eqn:E3; [|reflexivity].
      apply beq_eq in E3. subst. rewrite beq_refl in E2. discriminate.
    + rewrite !find_cons_mem, IH. destruct (beq k k') eqn:E3; [|reflexivity].
      apply beq_eq in E3. subst k'. rewrite E1. reflexivity.
Qed.

Lemma putNth_in : forall l i k x, NoDup l -> (i < length l)%nat ->
  (In x (putNth i k l) <-> x = k \/ (In x l /\ x <> nth i l [])).
Proof.
  induction l as [|y l IH]; intros i k x N LT; [cbn in LT; lia|].
  inversion N as [|? ? N1 N2]; subst. destruct i as [|i]; cbn [putNth nth In].
  - split.
    + intros [<-|Ix]; [auto|]. right. split; [auto|]. intros ->. contradiction.
    + intros [->|[[<-|Ix] NE]]; auto. congruence.
  - cbn in LT. rewrite (IH i k x N2) by lia. split.
    + intros [<-|[->|[Ix NE]]]; auto. right. split; [auto|]. intro E. apply N1.
      rewrite E. apply nth_In. lia.
    + intros [->|[[<-|Ix] NE]]; auto.
Qed.

Lemma putNth_length : forall l i k, length (putNth i k l) = length l.
Proof. induction l as [|y l IH]; intros [|i] k; cbn; auto. Qed.

Lemma putNth_nodup : forall l i k, NoDup l -> ~ In k l -> NoDup (putNth i k l).
Proof.
  induction l as [|y l IH]; intros i k N NI; [destruct i; constructor|].
  inversion N as [|? ? N1 N2]; subst. cbn in NI. destruct i as [|i]; cbn [putNth].
  - constructor; [tauto|assumption].
  - constructor; [|apply IH; tauto]. intro Iy.
    assert (G : forall l i, In y (putNth i k l) -> y = k \/ In y l).
    { clear. induction l as [|z l IH]; intros [|i]; cbn; intuition. apply IH in H0. tauto. }
    apply G in Iy as [->|Iy]; tauto.
Qed.

Lemma addMem_fresh : forall p k d s, cacheOK s -> findMem k (cMem s) = None ->
  exists s', addMem p k d s = Some s' /\ cacheOK s' /\
    (forall k', findMem k' (cMem s') <> None -> k' = k \/ findMem k' (cMem s) <> None) /\
    (cMax s <> O -> length (cKeys s) <> cMax s ->
       cKeys s' = cKeys s ++ [k] /\ forall k', k' = k \/ findMem k' (cMem s) <> None -> findMem k' (cMem s') <> None).
Proof.
  intros p k d s (C1 & C2 & C3) F. unfold addMem.
  destruct (Nat.eqb_spec (cMax s) 0) as [Z|Z].
  { exists s. split; [reflexivity|]. split; [split; auto|]. split; [auto|]. intros X. contradiction. }
  rewrite F.
  assert (NK : ~ In k (cKeys s)) by (rewrite C2, F; congruence).
  assert (FM : forall k', findMem k' ((k, d) :: cMem s) <> None <-> k' = k \/ findMem k' (cMem s) <> None).
  { intro k'. rewrite find_cons_mem. destruct (beq k' k) eqn:E.
    - apply beq_eq in E. subst. split; [auto|discriminate].
    - apply beq_neq in E. split; [auto|intros [E'|E']; [contradiction|exact E']]. }
  destruct (Nat.eqb_spec (length (cKeys s)) (cMax s)) as [FU|FU].
  - set (i := Nat.modulo p (length (cKeys s))).
    assert (LI : (i < length (cKeys s))%nat) by (apply Nat.mod_upper_bound; lia).
    set (v := nth i (cKeys s) []).
    assert (Iv : In v (cKeys s)) by (apply nth_In; exact LI).
    destruct (findMem v ((k, d) :: cMem s)) as [dv|] eqn:FV.
    2:{ exfalso. apply (proj2 (FM v)); [|exact FV]. right. apply C2. exact Iv. }
    eexists. split; [reflexivity|]. unfold cacheOK. cbn [cKeys cMem cMax].
    refine (conj (conj _ (conj _ _)) (conj _ _)).
    + apply putNth_nodup; assumption.
    + intro x. rewrite (putNth_in _ _ _ _ C1 LI), findMem_del. fold v. destruct (beq v x) eqn:E.
      * apply beq_eq in E. subst x. split; [intros [->|[_ NE]]; [contradiction|congruence]|congruence].
      * apply beq_neq in E. rewrite FM, <- C2. intuition.
    + rewrite putNth_length. exact C3.
    + intros k'. rewrite findMem_del. destruct (beq v k'); [congruence|]. apply FM.
    + intros _ X. contradiction.
  - eexists. split; [reflexivity|]. unfold cacheOK. cbn [cKeys cMem cMax].
    assert (ND : NoDup (cKeys s ++ [k])).
    { apply NoDup_Add with (a := k) (l := cKeys s); [|split; assumption].
      pose proof (Add_app k (cKeys s) []) as AA. rewrite app_nil_r in AA. exact AA. }
    refine (conj (conj ND (conj _ _)) (conj _ (fun _ _ => conj eq_refl _))).
    + intro x. rewrite in_app_iff, FM, <- C2. cbn. intuition.
    + rewrite app_length. cbn. lia.
    + intros k'. apply FM.
    + intros k'. apply FM.
Qed.

Section C.
Context (H : bytes -> key) (enc : bytes -> bytes) (dec : bytes -> option bytes) (W : nat)
        (Okb : bytes -> Prop) (L : laws H enc dec W Okb).

Notation stp := (step H enc dec W).
Notation rn := (run H enc dec W).
Notation ent := (ent H enc).
Notation J := (J H enc Okb).
Notation Str := (Str H enc).

(** *** Every blob is given once. *)
Definition waitKeys (s : cas) : list key := map (fun p => eKey (snd p)) (cWait s).

Definition N (w : world) : Prop :=
  ~ In ODead (wLog w) /\ (forall d, given (wLog w) d -> fits enc W d) /\
  match wUp w with
  | None => pending (wLog w) = []
  | Some s =>
      cacheOK s /\ pending (wLog w) = map (fun p => (fst p, eKey (snd p))) (cWait s) /\
      NoDup (waitKeys s) /\ NoDup (map fst (cWait s)) /\
      (forall k, In k (waitKeys s) -> findMem k (cMem s) = None) /\
      (forall k, findMem k (cMem s) <> None -> inIdx k (cIdx s)) /\
      match cJob s with
      | None => True
      | Some (_, r, _) => NoDup r /\ forall d, In d r -> ~ inIdx (H d) (cIdx s)
      end
  end.

Lemma pending_app : forall l o, pending (l ++ o) = fold_left pend1 o (pending l).
Proof. intros. unfold pending. apply fold_left_app. Qed.

Lemma noDead_app : forall l o, ~ In ODead l -> ~ In ODead o -> ~ In ODead (l ++ o).
Proof. intros l o A B I1. apply in_app_or in I1. tauto. Qed.

Lemma given_app_inv : forall l o d, (forall b, ~ In (OApp b) o) -> given (l ++ o) d -> given l d.
Proof.
  intros l o d NA (b & I1 & I2). apply in_app_or in I1 as [I1|I1]; [exists b; auto|].
  exfalso. exact (NA _ I1).
Qed.

Lemma readAt_fits : forall data pre d post, data = pre ++ rec H enc d ++ post -> fits enc W d ->
  readAt W data (len pre) (64 + len (enc d)) = Some (rec H enc d).
Proof.
  intros data pre d post D (F1 & F2 & F3).
  destruct (readAt_rec _ _ _ _ _ L data pre d post D) as [E|E]; [exact E|]. exfalso.
  unfold readAt in E. unfold len in E.
  destruct (enc d) as [|x r] eqn:ED; [congruence|].
  assert (C : (Z.of_nat (length pre) <? 0) || (64 + Z.of_nat (length (x :: r)) <=? 64)
              || (Z.of_nat W <? 64 + Z.of_nat (length (x :: r))) = false).
  { rewrite !orb_false_iff. repeat apply conj.
    - apply Z.ltb_ge. lia.
    - apply Z.leb_gt. cbn [length]. lia.
    - apply Z.ltb_ge. lia. }
  rewrite C in E. rewrite D, Nat2Z.id, skipn_app_exact in E by reflexivity.
  replace (Z.to_nat (64 + Z.of_nat (length (x :: r)))) with (length (rec H enc d)) in E
    by (rewrite (rec_length _ _ _ _ _ L), ED; lia).
  rewrite firstn_app_exact, Nat.ltb_irrefl in E by reflexivity. discriminate.
Qed.

Lemma filter_all : forall (A : Type) (f : A -> bool) l, (forall x, In x l -> f x = true) -> filter f l = l.
Proof.
  induction l as [|x l IH]; intro F; [reflexivity|]. cbn. rewrite F by (left; reflexivity).
  rewrite IH; [reflexivity|]. intros y Iy. apply F. right. exact Iy.
Qed.

Lemma NoDup_map_filter : forall (A B : Type) (f : A -> B) (p : A -> bool) l,
  NoDup (map f l) -> NoDup (map f (filter p l)).
Proof.
  induction l as [|x l IH]; intro ND; [constructor|]. cbn in ND. inversion ND as [|? ? N1 N2]; subst.
  cbn [filter]. destruct (p x); [|auto]. cbn. constructor; [|auto].
  intro I1. apply N1. apply in_map_iff in I1 as (y & E & Iy). apply filter_In in Iy.
  apply in_map_iff. exists y. tauto.
Qed.

Lemma N_step : forall w e, J w -> N w -> ~ isOpen e ->
  (forall b, e = EApp b -> Forall Okb b /\ Forall (fits enc W) b /\ NoDup b /\
     forall d, In d b -> ~ given (wLog w) d) ->
  (forall g k, e = EGet g k -> ~ In k (map snd (pending (wLog w)))) ->
  N (stp w e).
Proof.
  intros w e JW NW NO OB OG. destruct w as [data index up log].
  destruct NW as (ND & FI & NW). cbn [wData wIndex wUp wLog] in *.
  destruct up as [s|]; [|destruct e; try (split; [exact ND|split; [exact FI|exact NW]]); exfalso; apply NO; exact I].
  destruct NW as (CO & PE & WK & WG & WM & MI & JB).
  destruct JW as (LO & SS). cbn [wData wIndex wUp wLog] in *.
  destruct e as [b|pick|g k|g pick|pick j m|mx vf picks]; cbn [step wUp wData wIndex wLog].
  - destruct (cJob s) eqn:CJ.
    { repeat (apply conj; [assumption|]). cbn [wUp]. rewrite CJ.
      repeat (apply conj; [assumption|]). assumption. }
    destruct (OB b eq_refl) as (O1 & O2 & O3 & O4).
    split; cbn [wLog wUp]; [apply noDead_app; [exact ND|intros [E|[]]; discriminate]|].
    split.
    { intros d (b' & I1 & I2). apply in_app_or in I1 as [I1|[I1|[]]].
      - apply FI. exists b'. auto.
      - injection I1 as ->. rewrite Forall_forall in O2. auto. }
    rewrite pending_app. cbn [fold_left pend1 cMem cKeys cMax cWait cIdx cJob].
    split; [exact CO|]. repeat (apply conj; [assumption|]).
    intros d Id (e & Ie & Ke).
    destruct SS as (I1 & _). destruct (I1 e Ie) as (d' & E & G & _).
    assert (d' = d).
    { apply (law_inj _ _ _ _ _ L); [apply LO; exact G|rewrite Forall_forall in O1; auto|].
      rewrite <- Ke, E. reflexivity. }
    subst d'. exact (O4 d Id G).
  - destruct (appStep H enc W data pick s) as [s' ws o] eqn:A.
    destruct (cJob s) as [[[b [|d r]] n]|] eqn:CJ.
    + unfold appStep in A. rewrite CJ in A. injection A as <- <- <-.
      unfold apply_res. rewrite fold_writes. split; cbn [wLog wUp wData fst snd].
      * apply noDead_app; [exact ND|intros [E|[]]; discriminate].
      * split; [intros d G; apply FI; revert G; apply given_app_inv; intros b' [E|[]]; discriminate|].
        rewrite pending_app. cbn [fold_left pend1].
        split; [exact CO|]. repeat (apply conj; [assumption|]). exact I.
    + pose proof SS as (I1 & M & Wt & K & Jb). rewrite CJ in Jb. destruct Jb as (Jb1 & p & E & Jb2).
      assert (Gd : given log d) by (exists b; split; [exact Jb1|rewrite E; apply in_or_app; right; left; reflexivity]).
      assert (Od : Okb d) by (apply LO; exact Gd).
      destruct JB as (JN & JI). inversion JN as [|? ? JN1 JN2]; subst.
      assert (NI : ~ inIdx (H d) (cIdx s)) by (apply JI; left; reflexivity).
      assert (FM : findMem (H d) (cMem s) = None).
      { destruct (findMem (H d) (cMem s)) eqn:F; [|reflexivity]. exfalso. apply NI, MI. congruence. }
      destruct (addMem_fresh pick (H d) d s CO FM) as (s1 & AM & CO1 & MM & _).
      destruct (addMem_spec _ _ _ _ _ AM) as (A1 & A2 & A3 & A4 & A5 & A6).
      destruct (appStep_new _ _ _ _ _ L _ _ _ _ _ _ _ _ _ _ CJ Od A)
        as [(-> & -> & ->)|[(Xi & _)|(_ & _ & -> & s1' & AM' & Y)]].
      * exfalso. destruct (FI d Gd) as (Dn & _). unfold appStep in A. rewrite CJ in A.
        destruct d as [|x d]; [congruence|]. cbv zeta in A. rewrite FM in A.
        destruct (findIdx _ (cIdx s)) as [e'|] eqn:F2.
        { apply findIdx_some in F2. apply NI. exists e'. exact F2. }
        cbn [Bool.eqb negb] in A. rewrite AM in A. discriminate.
      * contradiction.
      * rewrite AM in AM'. injection AM' as <-.
        assert (EQ : exists buf, s' = Some (Cas (cIdx s ++ [ent (len data) d]) (cMem s1) (cKeys s1) (cMax s)
                    buf (Some (p ++ d :: r, r, S n)) (cWait s))).
        { destruct Y as [(_ & _ & ->)|(_ & _ & ->)]; eexists; reflexivity. }
        destruct EQ as (buf & ->). unfold apply_res. rewrite fold_writes.
        cbn [fst snd wData wIndex wLog wUp]. rewrite app_nil_r. split; [exact ND|]. split; [exact FI|].
        cbn [wUp wLog cMem cKeys cMax cWait cIdx cJob].
        split; [unfold cacheOK in *; cbn [cKeys cMem cMax]; rewrite A2 in CO1; exact CO1|].
        split; [exact PE|]. split; [exact WK|]. split; [exact WG|].
        assert (IXS : forall k, findMem k (cMem s1) <> None -> inIdx k (cIdx s ++ [ent (len data) d])).
        { intros k Fk. destruct (MM k Fk) as [->|Fk'].
          - exists (ent (len data) d). split; [apply in_or_app; right; left; reflexivity|reflexivity].
          - apply inIdx_app. auto. }
        split.
        { intros k Ik. destruct (findMem k (cMem s1)) eqn:F; [|reflexivity]. exfalso.
          destruct (MM k) as [->|F']; [congruence| |exact (F' (WM k Ik))].
          unfold waitKeys in Ik. cbn [cWait] in Ik. apply in_map_iff in Ik as ([g e] & Ke & Ig). cbn in Ke.
          apply NI. exists e. split; [exact (Wt _ _ Ig)|exact Ke]. }
        split; [exact IXS|]. split; [exact JN2|].
        intros d' Id (e & Ie & Ke). apply in_app_or in Ie as [Ie|[<-|[]]].
        -- apply (JI d'); [right; exact Id|]. exists e. auto.
        -- cbn in Ke. assert (d' = d); [|subst; contradiction].
           apply (law_inj _ _ _ _ _ L); [|exact Od|congruence]. apply LO. exists (p ++ d :: r).
           split; [exact Jb1|]. apply in_or_app. right. right. exact Id.
    + unfold appStep in A. rewrite CJ in A. injection A as <- <- <-.
      unfold apply_res. cbn [fold_left fst snd wData wIndex wLog wUp]. rewrite app_nil_r.
      split; [exact ND|]. split; [exact FI|]. cbn [wUp wLog]. rewrite CJ.
      repeat (apply conj; [assumption|]). exact I.
  - destruct (existsb _ (cWait s)) eqn:EX.
    { split; [exact ND|]. split; [exact FI|]. cbn [wUp]. repeat (apply conj; [assumption|]). exact JB. }
    assert (GW : ~ In g (map fst (cWait s))).
    { intro Ig. apply in_map_iff in Ig as (x & E & Ix). assert (F : existsb (fun p => Nat.eqb g (fst p)) (cWait s) = true).
      { apply existsb_exists. exists x. split; [exact Ix|]. rewrite E. apply Nat.eqb_refl. }
      congruence. }
    assert (PF : forall k', filter (fun x => negb (Nat.eqb g (fst x))) ((g, k') :: pending log) = pending log).
    { intro k'. cbn [filter fst]. rewrite Nat.eqb_refl. cbn [negb]. apply filter_all. intros [g' k2] Ix.
      rewrite PE in Ix. apply in_map_iff in Ix as ([g2 e2] & E & Ix). injection E as <- <-. cbn [fst].
      destruct (Nat.eqb_spec g g2) as [->|]; [|reflexivity]. exfalso. apply GW.
      apply in_map_iff. exists (g2, e2). auto. }
    assert (GA : forall o d, (forall b, ~ In (OApp b) o) -> given (log ++ o) d -> fits enc W d).
    { intros o d NA G. apply FI. revert G. apply given_app_inv. exact NA. }
    unfold getStep. destruct (findIdx k (cIdx s)) as [e|] eqn:FX; [destruct (findMem k (cMem s)) as [d|] eqn:FM|];
      unfold apply_res; cbn [fold_left fst snd wData wIndex wUp wLog]; (split; [|split]); cbn [wLog wUp];
      try (apply noDead_app; [exact ND|cbn; intuition; discriminate]);
      try (intros d'; apply GA; cbn; intuition; discriminate).
    + rewrite pending_app. cbn [fold_left pend1]. rewrite PF.
      repeat (apply conj; [assumption|]). exact JB.
    + rewrite pending_app. cbn [fold_left pend1 cMem cKeys cMax cWait cIdx cJob].
      apply findIdx_some in FX as [FX1 FX2].
      split; [exact CO|]. split; [cbn [map fst snd]; rewrite FX2, PE; reflexivity|].
      split.
      { unfold waitKeys. cbn [map cWait snd]. constructor; [|exact WK]. rewrite FX2. intro Ik.
        apply (OG g k eq_refl). rewrite PE, map_map. cbn [snd]. exact Ik. }
      split; [constructor; assumption|].
      split.
      { intros k' [<-|Ik]; [cbn [snd]; rewrite FX2; exact FM|auto]. }
      split; [exact MI|exact JB].
    + rewrite pending_app. cbn [fold_left pend1]. rewrite PF.
      repeat (apply conj; [assumption|]). exact JB.
  - unfold diskStep.
    assert (SAME : N (apply_res (World data index (Some s) log) (Res (Some s) [] []))).
    { unfold apply_res. cbn [fold_left fst snd wData wIndex wLog wUp]. rewrite app_nil_r.
      split; [exact ND|]. split; [exact FI|]. cbn [wUp wLog]. repeat (apply conj; [assumption|]). exact JB. }
    destruct (cJob s) eqn:CJ; [exact SAME|].
    destruct (find _ (cWait s)) as [[g' e]|] eqn:FW; [|exact SAME]. clear SAME.
    apply find_some in FW as [FW1 FW2]. cbn [fst] in FW2. apply Nat.eqb_eq in FW2. subst g'.
    destruct SS as (I1 & M & Wt & K & Jb).
    destruct (I1 e (Wt _ _ FW1)) as (d & E & G & pre & post & D & B).
    assert (RA : readAt W data (eBeg e) (eClen e) = Some (rec H enc d)).
    { rewrite B, E. cbn [Cas_Proofs.ent eClen]. eapply readAt_fits; eauto. }
    rewrite RA. unfold rec. rewrite skipn_app_exact by apply (hdr_length _ _ _ _ _ L).
    rewrite (law_dec _ _ _ _ _ L).
    assert (EU : eUlen e = wrap32 (Z.of_nat (length d))).
    { rewrite (proj2 (clen_ok _ _ _ _ _ L d (proj2 (proj2 LO) d G))), E. reflexivity. }
    rewrite EU, Z.eqb_refl. cbn [negb].
    assert (KW : In (eKey e) (waitKeys s)) by (apply in_map_iff; exists (g, e); auto).
    destruct (addMem_fresh pick (eKey e) d s CO (WM _ KW)) as (s1 & AM & CO1 & MM & _).
    rewrite AM. destruct (addMem_spec _ _ _ _ _ AM) as (A1 & A2 & A3 & A4 & A5 & A6).
    unfold apply_res. cbn [fold_left fst snd wData wIndex wLog wUp]. rewrite A1, A2, A3, A4, A5, CJ.
    assert (FF : forall x, In x (filter (fun p => negb (Nat.eqb g (fst p))) (cWait s)) ->
              In x (cWait s) /\ eKey (snd x) <> eKey e).
    { intros [g2 e2] Ix. apply filter_In in Ix as [Ix Ne]. split; [exact Ix|]. cbn [fst snd] in *. intro EK.
      assert (DUP : (g2, e2) = (g, e)).
      { clear - WK Ix FW1 EK. unfold waitKeys in WK. induction (cWait s) as [|x l IH]; [contradiction|].
        cbn in WK. inversion WK as [|? ? W1 W2]; subst.
        destruct Ix as [->|Ix], FW1 as [EQ|FW1].
        - congruence.
        - exfalso. apply W1. apply in_map_iff. exists (g, e). auto.
        - exfalso. subst x. apply W1. apply in_map_iff. exists (g2, e2). auto.
        - auto. }
      injection DUP as -> ->. rewrite Nat.eqb_refl in Ne. discriminate. }
    split; [apply noDead_app; [exact ND|cbn; intuition; discriminate]|].
    split; [intros d' G'; apply FI; revert G'; apply given_app_inv; cbn; intuition; discriminate|].
    cbn [wUp wLog cMem cKeys cMax cWait cIdx cJob].
    split; [unfold cacheOK in *; cbn [cKeys cMem cMax]; rewrite A2 in CO1; exact CO1|].
    split.
    { rewrite pending_app. cbn [fold_left pend1]. rewrite PE.
      clear. induction (cWait s) as [|x l IH]; [reflexivity|]. cbn [map filter fst].
      destruct (negb (Nat.eqb g (fst x))); cbn [map]; rewrite IH; reflexivity. }
    split; [apply NoDup_map_filter; exact WK|]. split; [apply NoDup_map_filter; exact WG|].
    split.
    { intros k Ik. apply in_map_iff in Ik as (x & Ek & Ix). apply FF in Ix as [Ix Ne].
      destruct (findMem k (cMem s1)) eqn:F; [|reflexivity]. exfalso.
      destruct (MM k) as [->|F']; [congruence|congruence|]. apply F'. apply WM. apply in_map_iff. exists x. auto. }
    split; [|exact I].
    intros k Fk. destruct (MM k Fk) as [->|Fk']; [exists e; split; [exact (Wt _ _ FW1)|reflexivity]|auto].
  - destruct (appStep H enc W data pick s) as [s' ws o]. unfold apply_res. cbn [wData wIndex wLog wUp].
    split; [apply noDead_app; [exact ND|cbn; intuition; discriminate]|].
    split; [intros d' G'; apply FI; revert G'; apply given_app_inv; cbn; intuition; discriminate|].
    cbn [wUp wLog]. rewrite pending_app. reflexivity.
  - exfalso. apply NO. exact I.
Qed.

Lemma open_N : forall max picks data index log,
  logOK H Okb log -> downS H enc data index log -> N (World data index None log) ->
  (length index mod 64 = 0)%nat ->
  N (stp (World data index None log) (EOpen max false picks)).
Proof.
  intros max picks data index log LO DS (ND & FI & PE) M. cbn [wUp wLog] in *. cbn [step wUp wData wIndex].
  destruct (open_whole _ _ _ _ _ L max data index log (proj2 (proj2 LO)) DS M)
    as (rs & tail & D & X & NDr & K & G & LI).
  unfold openStep. rewrite LI. unfold apply_res. cbn [fold_left fst snd wData wIndex wUp wLog].
  split; [apply noDead_app; [exact ND|cbn; intuition; discriminate]|].
  split; [intros d' G'; apply FI; revert G'; apply given_app_inv; cbn; intuition; discriminate|].
  cbn [wUp wLog cMem cKeys cMax cWait cIdx cJob]. rewrite pending_app. cbn [fold_left pend1].
  unfold cacheOK, waitKeys. cbn [cMem cKeys cMax cWait map length].
  split.
  { split; [constructor|]. split; [|lia]. intro k. split; [intros []|intro F; exfalso; apply F; reflexivity]. }
  split; [exact PE|]. split; [constructor|]. split; [constructor|].
  split; [intros k []|]. split; [|exact I]. intros k F. exfalso. apply F. reflexivity.
Qed.

Lemma N_run : forall es w, J w -> N w -> Forall (fun e => ~ isOpen e) es -> okrun stp Okb w es ->
  calm stp (fits enc W) w es -> N (rn w es).
Proof.
  induction es as [|e es IH]; intros w JW NW NO OK CA; [exact NW|]. cbn [run]. inversion NO as [|? ? N1 N2]; subst.
  destruct OK as [O1 O2]. destruct CA as [C1 C2].
  apply IH; [|apply N_step; auto|assumption|assumption|assumption].
  - apply (J_step _ _ _ _ _ L); auto. intros b ->. exact O1.
  - intros b ->. tauto.
  - intros g k ->. exact C1.
Qed.

Lemma run_N : forall es w, J w -> Str w -> N w -> okrun stp Okb w es -> calm stp (fits enc W) w es -> N (rn w es).
Proof.
  induction es as [|e es IH]; intros w JW SW NW OK CA; [exact NW|]. cbn [run].
  destruct OK as [O1 O2]. destruct CA as [C1 C2].
  destruct e as [b|pick|g k|g pick|pick j m|mx vf picks];
    try (apply IH; [apply (J_step _ _ _ _ _ L); auto; congruence
                   |apply (Str_step _ _ _ _ _ L); auto; congruence
                   |apply N_step; auto; try congruence |assumption|assumption];
         [..]; (intros b0 EB; injection EB as <-; tauto) || (intros g0 k0 EB; injection EB as <- <-; exact C1)).
  destruct O1 as [-> O1]. destruct w as [data index [s|] log].
  - cbn [step wUp] in *. apply IH; assumption.
  - pose proof JW as (LO & _). cbn [wLog wUp wIndex] in *. destruct (O1 eq_refl) as [ST|NO].
    + apply IH; [apply (open_J _ _ _ _ _ L)|apply (open_Str _ _ _ _ _ L)|apply open_N| |]; assumption.
    + apply N_run; [apply (open_J _ _ _ _ _ L); assumption|apply open_N; assumption|exact NO|exact O2|exact C2].
Qed.

Lemma N_blank : N blank.
Proof. split; [intros []|]. split; [intros d (b & [] & _)|reflexivity]. Qed.

End C.
