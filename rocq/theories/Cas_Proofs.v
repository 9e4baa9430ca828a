(** Invariants of the content-addressed store. *)
From Coq Require Import List ZArith Bool Lia Arith.
From Verif Require Import Cas_Model Cas_Spec.
Import ListNotations.
Open Scope Z_scope.

Lemma beq_eq : forall a b, beq a b = true <-> a = b.
Proof.
  induction a as [|x a IH]; intros [|y b]; cbn [beq]; split; intro E; try congruence; try discriminate.
  - apply andb_true_iff in E as [E1 E2]. apply Z.eqb_eq in E1. apply IH in E2. congruence.
  - injection E as -> ->. rewrite Z.eqb_refl. cbn. apply IH. reflexivity.
Qed.

Lemma beq_refl : forall a, beq a a = true.
Proof. intro a. apply beq_eq. reflexivity. Qed.

Lemma beq_neq : forall a b, beq a b = false <-> a <> b.
Proof.
  intros a b. destruct (beq a b) eqn:E.
  - apply beq_eq in E. split; congruence.
  - split; [|reflexivity]. intros _ ->. rewrite beq_refl in E. discriminate.
Qed.

Lemma findIdx_some : forall k l e, findIdx k l = Some e -> In e l /\ eKey e = k.
Proof.
  intros k l e E. apply find_some in E as [E1 E2]. apply beq_eq in E2. auto.
Qed.

Lemma findIdx_none : forall k l, findIdx k l = None -> forall e, In e l -> eKey e <> k.
Proof.
  intros k l E e I1 EQ. apply (find_none _ _ E) in I1. apply beq_neq in I1. congruence.
Qed.

Lemma findIdx_in : forall k l, (exists e, In e l /\ eKey e = k) -> exists e, findIdx k l = Some e.
Proof.
  intros k l (e & I1 & E). destruct (findIdx k l) eqn:F; [eauto|].
  exfalso. exact (findIdx_none _ _ F _ I1 E).
Qed.

Lemma findMem_some : forall k l d, findMem k l = Some d -> In (k, d) l.
Proof.
  intros k l d. unfold findMem. destruct (find (fun p => beq k (fst p)) l) as [[k' d']|] eqn:F; [|discriminate].
  cbn. intro E. injection E as ->. apply find_some in F as [F1 F2]. cbn in F2.
  apply beq_eq in F2. subst k'. exact F1.
Qed.

Lemma findMem_none : forall k l, findMem k l = None -> forall d, ~ In (k, d) l.
Proof.
  intros k l. unfold findMem. destruct (find (fun p => beq k (fst p)) l) as [[k' d']|] eqn:F; [discriminate|].
  intros _ d I1. apply (find_none _ _ F) in I1. cbn in I1. rewrite beq_refl in I1. discriminate.
Qed.

Lemma wrap32_id : forall z, -2147483648 <= z < 2147483648 -> wrap32 z = z.
Proof. intros z Hz. unfold wrap32. rewrite Z.mod_small; lia. Qed.

Lemma to_from32 : forall z r, -2147483648 <= z < 2147483648 -> to32 (from32 z ++ r) = z.
Proof.
  intros z r Hz. cbn [from32 app to32].
  assert (E : (z / 16777216) mod 256 * 16777216 + (z / 65536) mod 256 * 65536
              + (z / 256) mod 256 * 256 + z mod 256 = z mod 4294967296).
  { change 65536 with (256 * 256). change 16777216 with (256 * 256 * 256).
    change 4294967296 with (256 * 256 * 256 * 256).
    rewrite !(Z.rem_mul_r z) by lia. rewrite <- !Z.div_div by lia. ring. }
  rewrite E. unfold wrap32. rewrite Zplus_mod_idemp_l. rewrite Z.mod_small; lia.
Qed.

Lemma fromInt_length : forall z, length (from32 z) = 4%nat.
Proof. reflexivity. Qed.

Ltac sp5 := refine (conj _ (conj _ (conj _ (conj _ _)))).

Section P.
Context (H : bytes -> key) (enc : bytes -> bytes) (dec : bytes -> option bytes) (W : nat)
        (Okb : bytes -> Prop) (L : laws H enc dec W Okb).

Notation stp := (step H enc dec W).
Notation rn := (run H enc dec W).

Definition len (l : bytes) := Z.of_nat (length l).
Definition ent (beg : Z) (d : bytes) : entry := Ent (H d) beg (64 + len (enc d)) (len d).
Definition hdr (d : bytes) : bytes := header (ent 0 d).
Definition rec (d : bytes) : bytes := hdr d ++ enc d.
Definition inIdx (k : key) (l : list entry) := exists e, In e l /\ eKey e = k.

Lemma header_ent : forall b d, header (ent b d) = hdr d.
Proof. reflexivity. Qed.

Lemma hdr_length : forall d, length (hdr d) = 64%nat.
Proof.
  intro d. unfold hdr, header, ent. cbn [eKey eClen eUlen length]. rewrite !app_length, firstn_length.
  rewrite (law_len _ _ _ _ _ L). reflexivity.
Qed.

Lemma rec_length : forall d, length (rec d) = (64 + length (enc d))%nat.
Proof. intro d. unfold rec. rewrite app_length, hdr_length. reflexivity. Qed.

Lemma skipn_app_exact : forall (A : Type) (a b : list A) n, length a = n -> skipn n (a ++ b) = b.
Proof. intros A a b n <-. rewrite skipn_app, skipn_all, Nat.sub_diag. reflexivity. Qed.

Lemma firstn_app_exact : forall (A : Type) (a b : list A) n, length a = n -> firstn n (a ++ b) = a.
Proof. intros A a b n <-. rewrite firstn_app, firstn_all, Nat.sub_diag. cbn. apply app_nil_r. Qed.

Lemma hdr_eq : forall d, hdr d = 10 :: H d ++ from32 (64 + len (enc d)) ++ from32 (len d).
Proof.
  intro d. unfold hdr, header, ent. cbn [eKey eClen eUlen].
  rewrite firstn_all2 by (rewrite (law_len _ _ _ _ _ L); lia). reflexivity.
Qed.

Lemma hdr_56 : forall d r, skipn 56 (hdr d ++ r) = from32 (64 + len (enc d)) ++ from32 (len d) ++ r.
Proof.
  intros d r. unfold hdr, header, ent. cbn [eKey eClen eUlen].
  rewrite firstn_all2 by (rewrite (law_len _ _ _ _ _ L); lia).
  change ((10 :: H d ++ from32 (64 + len (enc d)) ++ from32 (len d)) ++ r)
    with ((10 :: H d ++ (from32 (64 + len (enc d)) ++ from32 (len d))) ++ r).
  rewrite app_comm_cons, <- !app_assoc. apply skipn_app_exact.
  cbn [length]. rewrite (law_len _ _ _ _ _ L). reflexivity.
Qed.

Lemma skipn_add : forall (A : Type) n m (l : list A), skipn n (skipn m l) = skipn (n + m) l.
Proof.
  intros A n m. induction m as [|m IH]; intro l.
  - rewrite Nat.add_0_r. reflexivity.
  - rewrite Nat.add_succ_r. destruct l as [|x l]; cbn [skipn]; [apply skipn_nil|apply IH].
Qed.

Lemma hdr_60 : forall d r, skipn 60 (hdr d ++ r) = from32 (len d) ++ r.
Proof.
  intros d r. change 60%nat with (4 + 56)%nat.
  replace (skipn (4 + 56) (hdr d ++ r)) with (skipn 4 (skipn 56 (hdr d ++ r))) by apply skipn_add.
  rewrite hdr_56. apply skipn_app_exact. reflexivity.
Qed.

Lemma okb_range : forall d, Okb d ->
  0 <= 64 + len (enc d) < 2147483648 /\ 0 <= len d < 2147483648.
Proof.
  intros d O. pose proof (law_clen _ _ _ _ _ L d O). pose proof (law_ulen _ _ _ _ _ L d O).
  unfold len. lia.
Qed.

Lemma unheader_hdr : forall beg d r, Okb d -> unheader beg (hdr d ++ r) = ent beg d.
Proof.
  intros beg d r O. unfold unheader, ent. destruct (okb_range d O) as [R1 R2].
  rewrite hdr_56, hdr_60, !to_from32 by lia. f_equal.
  rewrite hdr_eq. cbn [skipn app]. rewrite <- app_assoc. apply firstn_app_exact. apply (law_len _ _ _ _ _ L).
Qed.

(** *** A session: what the running store knows is right. *)

Definition sessOK (data : bytes) (s : cas) (log : list obs) : Prop :=
  (forall e, In e (cIdx s) -> exists d, e = ent (eBeg e) d /\ given log d /\
     exists pre post, data = pre ++ rec d ++ post /\ eBeg e = len pre) /\
  (forall k d, In (k, d) (cMem s) -> k = H d /\ given log d) /\
  (forall g e, In (g, e) (cWait s) -> In e (cIdx s)) /\
  (forall d, kept log d -> inIdx (H d) (cIdx s)) /\
  match cJob s with
  | None => True
  | Some (b, r, n) => In (OApp b) log /\
      exists p, b = p ++ r /\ forall d, In d p -> inIdx (H d) (cIdx s)
  end.

Definition logOK (log : list obs) : Prop :=
  right H log /\ found H log /\ (forall d, given log d -> Okb d).

Definition J (w : world) : Prop :=
  logOK (wLog w) /\ match wUp w with None => True | Some s => sessOK (wData w) s (wLog w) end.

Lemma given_app : forall l o d, given l d -> given (l ++ o) d.
Proof. intros l o d (b & I1 & I2). exists b. split; [apply in_or_app; auto|auto]. Qed.

Lemma kept_app : forall l o d, kept l d -> kept (l ++ o) d.
Proof. intros l o d (b & n & I1 & I2). exists b, n. split; [apply in_or_app; auto|auto]. Qed.

Lemma snoc_split : forall (A : Type) (l l1 l2 : list A) x y,
  l ++ [x] = l1 ++ y :: l2 -> (l2 = [] /\ l = l1 /\ x = y) \/ (exists l2', l = l1 ++ y :: l2').
Proof.
  intros A l l1 l2 x y E. destruct (exists_last (l := y :: l2)) as (q & z & Q); [discriminate|].
  rewrite Q, app_assoc in E. apply app_inj_tail in E as [E1 E2]. subst z.
  destruct l2 as [|a l2].
  - destruct q as [|? q]; [|destruct q; discriminate]. injection Q as ->.
    left. rewrite app_nil_r in E1. auto.
  - right. destruct q as [|b q]; [discriminate|]. injection Q as <- Q. exists q. exact E1.
Qed.

(** What a log must meet to be extended by one observation. *)
Lemma logOK_snoc : forall l o, logOK l ->
  match o with
  | OGot g k (Some d) => H d = k /\ given l d
  | OGot g k None => forall d, kept l d -> H d <> k
  | OApp b => Forall Okb b
  | _ => True
  end -> logOK (l ++ [o]).
Proof.
  intros l o (R & F & G) C. repeat apply conj.
  - intros l1 g k d l2 E. apply snoc_split in E as [(-> & -> & ->)|(l2' & ->)].
    + exact C.
    + exact (R _ _ _ _ _ eq_refl).
  - intros l1 g k l2 d E. apply snoc_split in E as [(-> & -> & ->)|(l2' & ->)].
    + apply C.
    + exact (F _ _ _ _ _ eq_refl).
  - intros d (b & I1 & I2). apply in_app_or in I1 as [I1|[->|[]]].
    + apply G. exists b. auto.
    + rewrite Forall_forall in C. auto.
Qed.

Lemma addMem_spec : forall p k d s s', addMem p k d s = Some s' ->
  cIdx s' = cIdx s /\ cMax s' = cMax s /\ cBuf s' = cBuf s /\ cJob s' = cJob s /\ cWait s' = cWait s /\
  (forall x, In x (cMem s') -> x = (k, d) \/ In x (cMem s)).
Proof.
  intros p k d s s'. unfold addMem.
  destruct (Nat.eqb (cMax s) 0); [intro E; injection E as <-; intuition|].
  set (mem := match findMem k (cMem s) with Some _ => cMem s | None => (k, d) :: cMem s end).
  assert (M : forall x, In x mem -> x = (k, d) \/ In x (cMem s)).
  { intro x. subst mem. destruct (findMem k (cMem s)); [auto|]. intros [<-|I1]; auto. }
  destruct (Nat.eqb _ _).
  - destruct (findMem _ mem); [|discriminate]. intro E. injection E as <-.
    cbn [cIdx cMax cBuf cJob cWait cMem]. repeat apply conj; try reflexivity.
    intros x I1. apply filter_In in I1. apply M. tauto.
  - intro E. injection E as <-. cbn [cIdx cMax cBuf cJob cWait cMem].
    repeat apply conj; try reflexivity. exact M.
Qed.

Lemma sess_log : forall data s log o, sessOK data s log ->
  (forall d, kept (log ++ o) d -> kept log d) -> sessOK data s (log ++ o).
Proof.
  intros data s log o (I1 & M & Wt & K & Jb) KK. repeat apply conj.
  - intros e Ie. destruct (I1 e Ie) as (d & E & G & P). exists d. auto using given_app.
  - intros k d Im. destruct (M k d Im). auto using given_app.
  - exact Wt.
  - intros d Kd. auto.
  - destruct (cJob s) as [[[b r] n]|]; [|exact I]. destruct Jb as (Jb1 & Jb2).
    split; [apply in_or_app; auto|exact Jb2].
Qed.

Lemma kept_noDone : forall l o, (forall b n, ~ In (ODone b n) o) -> forall d, kept (l ++ o) d -> kept l d.
Proof.
  intros l o N d (b & n & I1 & I2). apply in_app_or in I1 as [I1|I1].
  - exists b, n. auto.
  - exfalso. exact (N _ _ I1).
Qed.

Lemma one_noDone : forall o, match o with ODone _ _ => False | _ => True end ->
  forall b n, ~ In (ODone b n) [o].
Proof. intros o N b n [->|[]]. exact N. Qed.

Lemma clen_ok : forall d, Okb d ->
  wrap32 (wrap32 (Z.of_nat (length (enc d))) + 64) = 64 + len (enc d) /\
  wrap32 (Z.of_nat (length d)) = len d.
Proof.
  intros d O. destruct (okb_range d O). unfold len in *. rewrite !wrap32_id by (rewrite ?wrap32_id; lia). lia.
Qed.

(** What the next turn of Append does when all is well. *)
Lemma appStep_new : forall data pick s s' ws o b d r n,
  cJob s = Some (b, d :: r, n) -> Okb d ->
  appStep H enc W data pick s = Res s' ws o ->
  (s' = None /\ ws = [] /\ o = [ODead]) \/
  (inIdx (H d) (cIdx s) /\ ws = [] /\ o = [] /\ d <> [] /\
   s' = Some (Cas (cIdx s) (cMem s) (cKeys s) (cMax s) (cBuf s) (Some (b, r, n)) (cWait s))) \/
  (~ inIdx (H d) (cIdx s) /\ d <> [] /\ o = [] /\
   exists s1, addMem pick (H d) d s = Some s1 /\
   ((Nat.ltb (W - length (cBuf s)) 64 = true /\
     ws = [WI (cBuf s); WD (hdr d); WD (enc d)] /\
     s' = Some (Cas (cIdx s ++ [ent (len data) d]) (cMem s1) (cKeys s1) (cMax s)
                    (hdr d) (Some (b, r, S n)) (cWait s))) \/
    (Nat.ltb (W - length (cBuf s)) 64 = false /\
     ws = [WD (hdr d); WD (enc d)] /\
     s' = Some (Cas (cIdx s ++ [ent (len data) d]) (cMem s1) (cKeys s1) (cMax s)
                    (cBuf s ++ hdr d) (Some (b, r, S n)) (cWait s))))).
Proof.
  intros data pick s s' ws o b d r n Jb O. unfold appStep. rewrite Jb.
  destruct d as [|x d]; [intro E; injection E as <- <- <-; auto|].
  set (dd := x :: d) in *. cbv zeta.
  destruct (clen_ok dd O) as [C1 C2]. rewrite C1, C2.
  fold (len data). fold (ent (len data) dd).
  destruct (findIdx (H dd) (cIdx s)) as [e|] eqn:FI; destruct (findMem (H dd) (cMem s)) as [d'|] eqn:FM;
    cbn [Bool.eqb negb].
  - intro E. injection E as <- <- <-. right. left. apply findIdx_some in FI.
    repeat apply conj; try reflexivity; [exists e; tauto|subst dd; discriminate].
  - intro E. injection E as <- <- <-. auto.
  - intro E. injection E as <- <- <-. auto.
  - destruct (addMem pick (H dd) dd s) as [s1|] eqn:A; [|intro E; injection E as <- <- <-; auto].
    destruct (addMem_spec _ _ _ _ _ A) as (E1 & E2 & E3 & E4 & E5 & E6).
    rewrite E1, E2, E3, E5. intro E. right. right.
    assert (N : ~ inIdx (H dd) (cIdx s)).
    { intros (e & Ie & Ke). exact (findIdx_none _ _ FI _ Ie Ke). }
    destruct (Nat.ltb (W - length (cBuf s)) 64); injection E as <- <- <-; cbn [app];
      (repeat apply conj; [exact N|subst dd; discriminate|reflexivity|]); exists s1;
      (split; [reflexivity|]); [left|right]; auto.
Qed.

Lemma fold_writes : forall ws d i, fold_left doWrite ws (d, i) =
  (d ++ concat (map (fun w => match w with WD b => b | WI _ => [] end) ws),
   i ++ concat (map (fun w => match w with WI b => b | WD _ => [] end) ws)).
Proof.
  induction ws as [|[b|b] ws IH]; intros d i; cbn [fold_left doWrite map concat fst snd];
    rewrite ?app_nil_r; [reflexivity| |]; rewrite IH; rewrite <- ?app_assoc; reflexivity.
Qed.

Lemma sess_more : forall data ext s log, sessOK data s log -> sessOK (data ++ ext) s log.
Proof.
  intros data ext s log (I1 & M & Wt & K & Jb). repeat apply conj; auto.
  intros e Ie. destruct (I1 e Ie) as (d & E & G & pre & post & D & B). exists d. repeat apply conj; auto.
  exists pre, (post ++ ext). rewrite D, <- !app_assoc. auto.
Qed.

Lemma inIdx_app : forall k l l', inIdx k l -> inIdx k (l ++ l').
Proof. intros k l l' (e & I1 & E). exists e. split; [apply in_or_app; auto|auto]. Qed.

Lemma readAt_rec : forall data pre d post, data = pre ++ rec d ++ post ->
  readAt W data (len pre) (64 + len (enc d)) = Some (rec d) \/
  readAt W data (len pre) (64 + len (enc d)) = None.
Proof.
  intros data pre d post ->. unfold readAt. unfold len.
  destruct (_ || _ || _); [auto|]. left.
  rewrite Nat2Z.id, skipn_app_exact by reflexivity.
  replace (Z.to_nat (64 + Z.of_nat (length (enc d)))) with (length (rec d)) by (rewrite rec_length; lia).
  rewrite firstn_app_exact by reflexivity. rewrite Nat.ltb_irrefl. reflexivity.
Qed.

Lemma J_dead : forall w d i ws o, o = ODead \/ o = OKill ->
  J w -> J (apply_res (World d i (wUp w) (wLog w)) (Res None ws [o])).
Proof.
  intros w d i ws o OO (LO & _). unfold apply_res, J. cbn [wLog wUp]. split; [|exact I].
  apply logOK_snoc; [exact LO|destruct OO as [-> | ->]; exact I].
Qed.

Lemma J_step : forall w e, J w -> ~ isOpen e ->
  (forall b, e = EApp b -> Forall Okb b) -> J (stp w e).
Proof.
  intros w e JW NO OB. pose proof JW as (LO & SS). destruct w as [data index up log].
  cbn [wData wIndex wUp wLog] in *.
  destruct up as [s|]; [|destruct e; try exact JW; exfalso; apply NO; exact I].
  destruct e as [b|pick|g k|g pick|pick j m|mx vf picks]; cbn [step wUp wData wIndex wLog].
  - (* Append is called *)
    destruct (cJob s) eqn:CJ; [exact JW|].
    split; cbn [wLog wUp wData].
    + apply logOK_snoc; auto.
    + destruct SS as (I1 & M & Wt & K & Jb).
      assert (S0 : sessOK data (Cas (cIdx s) (cMem s) (cKeys s) (cMax s) (cBuf s) None (cWait s)) log)
        by (sp5; try assumption; exact I).
      apply sess_log with (o := [OApp b]) in S0;
        [|apply kept_noDone; apply one_noDone; exact I].
      destruct S0 as (I1' & M' & Wt' & K' & _). sp5; auto; cbn [cJob].
      split; [apply in_or_app; right; left; reflexivity|]. exists []. split; [reflexivity|intros d []].
  - (* a turn of Append *)
    destruct (appStep H enc W data pick s) as [s' ws o] eqn:A.
    destruct (cJob s) as [[[b [|d r]] n]|] eqn:CJ.
    + unfold appStep in A. rewrite CJ in A. injection A as <- <- <-.
      unfold apply_res. rewrite fold_writes. cbn [fst snd].
      split; cbn [wLog wUp wData].
      * apply logOK_snoc; [exact LO|exact I].
      * destruct SS as (I1 & M & Wt & K & Jb). rewrite CJ in Jb. destruct Jb as (Jb1 & p & E & Jb2).
        rewrite app_nil_r in E. subst p.
        assert (DE : concat (map (fun w => match w with WD b0 => b0 | WI _ => [] end)
                      (match cBuf s with [] => [] | _ => [WI (cBuf s)] end)) = [])
          by (destruct (cBuf s); reflexivity).
        rewrite DE, app_nil_r. sp5; cbn [cIdx cMem cWait cJob].
        -- intros e Ie. destruct (I1 e Ie) as (d & ? & ? & ?). exists d. auto using given_app.
        -- intros k d Im. destruct (M k d Im). auto using given_app.
        -- exact Wt.
        -- intros d (b' & n' & Ib & Id). apply in_app_or in Ib as [Ib|[Ib|[]]].
           ++ apply K. exists b', n'. auto.
           ++ injection Ib as -> ->. auto.
        -- exact I.
    + destruct SS as (I1 & M & Wt & K & Jb). pose proof Jb as Jb0. rewrite CJ in Jb. destruct Jb as (Jb1 & p & E & Jb2).
      assert (Gd : given log d) by (exists b; split; [exact Jb1|rewrite E; apply in_or_app; right; left; reflexivity]).
      assert (Od : Okb d) by (apply LO; exact Gd).
      destruct (appStep_new _ _ _ _ _ _ _ _ _ _ CJ Od A)
        as [(-> & -> & ->)|[(X & -> & -> & _ & ->)|(X & _ & -> & s1 & AM & Y)]].
      * refine (J_dead (World data index (Some s) log) _ _ _ _ _ JW); auto.
      * unfold apply_res. cbn [fold_left fst snd wData wIndex wLog]. rewrite app_nil_r.
        split; [exact LO|]. cbn [wUp wData wLog]. sp5; auto; cbn [cJob].
        split; [exact Jb1|]. exists (p ++ [d]). rewrite <- app_assoc. split; [exact E|].
        intros d' Id. apply in_app_or in Id as [Id|[<-|[]]]; auto.
      * assert (EQ : exists buf, s' = Some (Cas (cIdx s ++ [ent (len data) d]) (cMem s1) (cKeys s1) (cMax s)
                    buf (Some (b, r, S n)) (cWait s)) /\
                    concat (map (fun w => match w with WD b0 => b0 | WI _ => [] end) ws) = rec d).
        { destruct Y as [(_ & -> & ->)|(_ & -> & ->)]; eexists; (split; [reflexivity|]);
            cbn; rewrite app_nil_r; reflexivity. }
        destruct EQ as (buf & -> & DE). unfold apply_res. rewrite fold_writes, DE.
        cbn [fst snd wData wIndex wLog wUp]. rewrite app_nil_r. split; [exact LO|]. cbn [wUp wData wLog].
        destruct (addMem_spec _ _ _ _ _ AM) as (_ & _ & _ & _ & _ & M1).
        sp5; cbn [cIdx cMem cWait cJob].
        -- intros e Ie. apply in_app_or in Ie as [Ie|[<-|[]]].
           ++ destruct (I1 e Ie) as (d' & E' & G' & pre & post & D & B). exists d'.
              repeat apply conj; auto. exists pre, (post ++ rec d). rewrite D, <- !app_assoc. auto.
           ++ exists d. repeat apply conj; auto. exists data, []. rewrite app_nil_r. auto.
        -- intros k' d' Im. destruct (M1 _ Im) as [EQ|Im']; [injection EQ as -> ->; auto|auto].
        -- intros g e Ig. apply in_or_app. left. eauto.
        -- intros d' Kd. apply inIdx_app. auto.
        -- split; [exact Jb1|]. exists (p ++ [d]). rewrite <- app_assoc. split; [exact E|].
           intros d' Id. apply in_app_or in Id as [Id|[<-|[]]]; [apply inIdx_app; auto|].
           exists (ent (len data) d). split; [apply in_or_app; right; left; reflexivity|reflexivity].
    + unfold appStep in A. rewrite CJ in A. injection A as <- <- <-.
      unfold apply_res. cbn. rewrite app_nil_r. exact JW.
  - (* Get looks in the maps *)
    destruct (existsb _ (cWait s)); [exact JW|].
    assert (LO1 : logOK (log ++ [OAsk g k])) by (apply logOK_snoc; [exact LO|exact I]).
    assert (SS1 : sessOK data s (log ++ [OAsk g k])).
    { apply sess_log; [exact SS|]. apply kept_noDone. apply one_noDone. exact I. }
    unfold getStep. destruct (findIdx k (cIdx s)) as [e|] eqn:FI; [|].
    + destruct (findMem k (cMem s)) as [d|] eqn:FM; unfold apply_res; cbn [fold_left fst snd wData wIndex wLog].
      * change [OAsk g k; OGot g k (Some d)] with ([OAsk g k] ++ [OGot g k (Some d)]). rewrite app_assoc.
        pose proof SS1 as (I1 & M & Wt & K & Jb). destruct (M _ _ (findMem_some _ _ _ FM)) as [E G].
        split; cbn [wLog wUp wData].
        -- apply logOK_snoc; auto.
        -- apply sess_log; [exact SS1|]. apply kept_noDone. apply one_noDone. exact I.
      * split; [exact LO1|]. cbn [wUp wData wLog].
        destruct SS1 as (I1 & M & Wt & K & Jb). sp5; auto; cbn [cWait cIdx].
        intros g' e' [EQ|Ie]; [injection EQ as <- <-; apply findIdx_some in FI; tauto|eauto].
    + change [OAsk g k; OGot g k None] with ([OAsk g k] ++ [OGot g k None]).
      unfold apply_res; cbn [fold_left fst snd wData wIndex wLog]. rewrite app_assoc. split; cbn [wLog wUp wData].
      * apply logOK_snoc; [exact LO1|]. intros d Kd EQ. destruct SS1 as (I1 & M & Wt & K & Jb).
        destruct (K d Kd) as (e & Ie & Ke). rewrite EQ in Ke. exact (findIdx_none _ _ FI _ Ie Ke).
      * apply sess_log; [exact SS1|]. apply kept_noDone. apply one_noDone. exact I.
  - (* Get reads the file *)
    assert (DD : forall ws, J (apply_res (World data index (Some s) log) (Res None ws [ODead])))
      by (intro ws; refine (J_dead (World data index (Some s) log) _ _ _ _ _ JW); auto).
    unfold diskStep.
    destruct (cJob s) eqn:CJ; [unfold apply_res; cbn; rewrite app_nil_r; exact JW|].
    destruct (find _ (cWait s)) as [[g' e]|] eqn:FW; [|unfold apply_res; cbn; rewrite app_nil_r; exact JW].
    destruct SS as (I1 & M & Wt & K & Jb).
    apply find_some in FW as [FW1 FW2]. pose proof (Wt _ _ FW1) as Ie.
    destruct (I1 e Ie) as (d & E & G & pre & post & D & B).
    destruct (readAt W data (eBeg e) (eClen e)) as [bb|] eqn:RA; [|apply DD].
    assert (bb = rec d).
    { rewrite E in RA. cbn [ent eBeg eClen] in RA. rewrite B in RA.
      destruct (readAt_rec data pre d post D) as [R|R]; rewrite R in RA; congruence. }
    subst bb. unfold rec. rewrite skipn_app_exact by apply hdr_length.
    rewrite (law_dec _ _ _ _ _ L).
    destruct (negb (eUlen e =? wrap32 (Z.of_nat (length d)))); [apply DD|].
    destruct (addMem pick (eKey e) d s) as [s1|] eqn:AM; [|apply DD].
    destruct (addMem_spec _ _ _ _ _ AM) as (A1 & A2 & A3 & A4 & A5 & A6).
    unfold apply_res; cbn [fold_left fst snd wData wIndex wLog]. rewrite A1, A4, A5, CJ.
    assert (KE : eKey e = H d) by (rewrite E; reflexivity).
    split; cbn [wLog wUp wData].
    + apply logOK_snoc; auto.
    + apply sess_log; [|apply kept_noDone; apply one_noDone; exact I].
      sp5; auto; cbn [cMem cWait cIdx].
      * intros k' d' Im. destruct (A6 _ Im) as [EQ|Im']; [injection EQ as -> ->; auto|auto].
      * intros g2 e2 Ig. apply filter_In in Ig as [Ig _]. eauto.
  - (* killed *)
    destruct (appStep H enc W data pick s) as [s' ws o]. refine (J_dead (World data index (Some s) log) _ _ _ _ _ JW); auto.
  - exfalso. apply NO. exact I.
Qed.

End P.
