(* The cluster with ACKs sent to the coordinator only: in a calm run the log
   never goes back in time. *)

From Coq Require Import List Arith Bool Lia.
Import ListNotations.
From Verif Require Import Herm_Spec Herm_Model Herm_Order Herm_Lin Herm_Tick Herm_Uni.

Section G.
Variable c : cfg.
Hypothesis inj : hashInj c.
Hypothesis uni : cBcast c = false.

Definition Iss (l : list lev) (id : nat) (t : ts) (v : option nat) : Prop := In (LIss id t v) l.
Definition Kn (N : nat -> nst) (a : nat) (t : ts) : Prop := ole c (Some t) (ots (N a)).

Lemma iss_fun1 l : logOK c l -> forall id t v t' v', Iss l id t v -> Iss l id t' v' -> t = t' /\ v = v'.
Proof.
  intros L id t v t' v' A B. apply In_nth_error in A. apply In_nth_error in B.
  destruct A as [i A], B as [j B]. pose proof (uniq_iss_id c l L i j id t v t' v' A B). subst j.
  rewrite A in B. injection B as <- <-. auto.
Qed.

Lemma iss_fun2 l : logOK c l -> forall id t v id' v', Iss l id t v -> Iss l id' t v' -> id = id' /\ v = v'.
Proof.
  intros L id t v id' v' A B. apply In_nth_error in A. apply In_nth_error in B.
  destruct A as [i A], B as [j B]. pose proof (uniq_iss_ts c l L i j id id' t v v' A B). subst j.
  rewrite A in B. injection B as <- <-. auto.
Qed.

Lemma inv_fun l : logOK c l -> forall id n o n' o', In (LInv id n o) l -> In (LInv id n' o') l -> n = n' /\ o = o'.
Proof.
  intros L id n o n' o' A B. apply In_nth_error in A. apply In_nth_error in B.
  destruct A as [i A], B as [j B]. pose proof (uniq_inv c l L i j id n o n' o' A B). subst j.
  rewrite A in B. injection B as <- <-. auto.
Qed.

Definition unans (l : list lev) (id : nat) : Prop :=
  (forall v t, ~ In (LRRes id v t) l) /\ (forall b, ~ In (LWRes id b) l).

Definition opm (op : top) (o : opn) : Prop :=
  match op with READ => o = OpR | WRITE => exists v, o = OpW v end.

Definition msgOK (l : list lev) (N : nat -> nst) (dm : nat * msg) : Prop :=
  match dm with
  | (d, MInv from t v tid) => d <> from /\ from = tcid t /\ from < cRD c /\ Iss l tid t v
  | (d, MAck from t tid) => (exists v, Iss l tid t v) /\ d = tcid t /\ from <> d /\ from < cRD c /\ Kn N from t
  | (d, MVal _ t _) => (exists id v, Iss l id t v) /\ forall a, a < cRD c -> Kn N a t
  end.

Record GI (g : gst) : Prop := {
  g_log : logOK c (gLog g);
  g_node : forall n, n < cRD c -> gDead g n = false /\ hOut (gN g n) = [] /\
    NIu c (Iss (gLog g)) (Kn (gN g)) n (gN g n);
  g_pend : forall n t, n < cRD c -> In t (hPend (gN g n)) ->
    (exists o, In (LInv (tId t) n o) (gLog g) /\ opm (tOp t) o) /\ unans (gLog g) (tId t);
  g_ids : forall e, In e (gLog g) -> idOf e < gTid g;
  g_net : Forall (msgOK (gLog g) (gN g)) (gNet g);
  g_done : forall t, doneTs (gLog g) (Some t) -> forall a, a < cRD c -> Kn (gN g) a t;
  g_iss : forall id t v, Iss (gLog g) id t v -> tcid t < cRD c /\ Kn (gN g) (tcid t) t /\
    (cRD c <> 1 -> 1 <= tver t) }.

(* ---- answers are appended to the log ---- *)
Definition notIssue (o : out) : Prop := match o with OIssue _ _ _ => False | _ => True end.

Lemma outOK_notIssue I n s os : Forall (outOK c I n s) os -> Forall notIssue os.
Proof. apply Forall_impl. intros [| | |]; cbn; auto. Qed.

Lemma iss_out l os : Forall notIssue os -> forall id t v, Iss (l ++ flat_map outLog os) id t v <-> Iss l id t v.
Proof.
  intros F id t v. unfold Iss. rewrite in_app_iff. split; auto. intros [H|H]; auto. exfalso.
  apply in_flat_map in H. destruct H as (o & O & H). rewrite Forall_forall in F. apply F in O.
  destruct o as [| |? [] []|]; cbn in *; try tauto; destruct H as [H|[]]; discriminate.
Qed.

Lemma NIu_ext (I1 I2 : nat -> ts -> option nat -> Prop) (K1 K2 : nat -> ts -> Prop) n s s' :
  (forall id t v, I1 id t v -> I2 id t v) -> (forall a t, K1 a t -> K2 a t) ->
  hKey s' = hKey s -> hPend s' = hPend s ->
  (forall t, In t (hPend s) -> tOp t = READ -> forall x v, ~ I2 (tId t) x v) ->
  NIu c I1 K1 n s -> NIu c I2 K2 n s'.
Proof.
  intros HI HK E1 E2 NR [A B C D E F]. constructor; rewrite ?E1, ?E2; auto.
  - intros k H. destruct (C k H) as [|(id & X)]; eauto.
  - intros k H. specialize (D k H). destruct (kSt k); auto. destruct D as ((id & X) & Y). split; [exists id|]; auto.
  - intros t T. destruct (E t T) as (X & Y & Z). repeat split; auto.
  - intros t T O. destruct (F t T O) as (k & X1 & X2 & X3 & X4 & X5 & X6 & X7).
    exists k. repeat (split; auto); try apply X7; auto. apply HK. now apply X7.
Qed.

Lemma outOK_ext (I1 I2 : nat -> ts -> option nat -> Prop) n s o : (forall id t v, I1 id t v -> I2 id t v) -> outOK c I1 n s o -> outOK c I2 n s o.
Proof.
  intros H. destruct o as [[]|d []|id [] []|]; cbn; auto; try tauto.
  - intros (A & B & C & D). auto.
  - intros (A & B & C & D & v & E). repeat split; auto. exists v. auto.
  - intros (A & B). auto.
Qed.

Lemma outs_log n s' : forall os l0,
  logOK c l0 ->
  (forall d, doneTs l0 d -> ole c d (ots s')) ->
  Forall (outOK c (Iss l0) n s') os -> Forall notIssue os ->
  NoDup (map fst (dones os)) ->
  (forall id op, In (id, op) (dones os) -> (exists m o, In (LInv id m o) l0 /\ opm op o) /\ unans l0 id) ->
  (forall v t, validAs s' v t -> exists j, Iss l0 j t v) ->
  logOK c (l0 ++ flat_map outLog os) /\
  (forall d, doneTs (l0 ++ flat_map outLog os) d -> doneTs l0 d \/ d = None \/ exists v t, d = Some t /\ validAs s' v t).
Proof.
  induction os as [|o os IH]; intros l0 L A B NI ND D V.
  - cbn. rewrite app_nil_r. auto.
  - inversion B as [|o' os' B1 B2]; subst. inversion NI as [|o' os' N1 N2]; subst.
    cbn [flat_map]. rewrite app_assoc.
    assert (ISS : forall id t v, Iss (l0 ++ outLog o) id t v <-> Iss l0 id t v).
    { intros. pose proof (iss_out l0 [o]) as Q. cbn in Q. rewrite app_nil_r in Q. apply Q. auto. }
    assert (Lo : logOK c (l0 ++ outLog o) /\
       (forall d, doneTs (l0 ++ outLog o) d -> doneTs l0 d \/ (d = ots s' /\ (d = None \/ exists v t, d = Some t /\ validAs s' v t)))).
    { destruct o as [m|x m|id op r|]; cbn [outLog] in *; rewrite ?app_nil_r; try (split; auto; fail); [|destruct N1].
      destruct (D id op) as ((m & o & D1 & D2) & D3 & D4); [cbn; auto|].
      assert (VO : forall v t, validAs s' v t -> ots s' = Some t).
      { intros v t (k & X & _ & <- & _). unfold ots. now rewrite X. }
      destruct op; destruct r as [v t| |]; cbn in B1; try contradiction; cbn in D2.
      - subst o. split.
        + apply logOK_snoc; auto. cbn. repeat split; eauto.
          intros d Hd. rewrite <- (VO _ _ B1). auto.
        + intros d [(i & w & H)|(i & x & w & E & H1 & H2)].
          * apply in_app_or in H. destruct H as [H|[H|[]]]; [left; left; eauto|].
            injection H as _ <- <-. right. rewrite (VO _ _ B1). split; eauto.
          * left. right. exists i, x, w. apply ISS in H2.
            apply in_app_or in H1. destruct H1 as [H1|[H1|[]]]; [auto|discriminate].
      - subst o. assert (O : ots s' = None) by (unfold ots; rewrite B1; auto). split.
        + apply logOK_snoc; auto. cbn. repeat split; eauto. rewrite <- O. auto.
        + intros d [(i & w & H)|(i & x & w & E & H1 & H2)].
          * apply in_app_or in H. destruct H as [H|[H|[]]]; [left; left; eauto|].
            injection H as _ <- <-. right. auto.
          * left. right. exists i, x, w. apply ISS in H2.
            apply in_app_or in H1. destruct H1 as [H1|[H1|[]]]; [auto|discriminate].
      - destruct D2 as [w ->]. destruct B1 as [B1 B3]. split.
        + apply logOK_snoc; auto. cbn. repeat split; eauto.
        + intros d [(i & w' & H)|(i & x & w' & E & H1 & H2)].
          * apply in_app_or in H. destruct H as [H|[H|[]]]; [left; left; eauto|discriminate].
          * apply ISS in H2. apply in_app_or in H1. destruct H1 as [H1|[H1|[]]].
            -- left. right. exists i, x, w'. auto.
            -- injection H1 as <-. destruct (iss_fun1 l0 L _ _ _ _ _ B3 H2) as [<- <-].
               right. rewrite (VO _ _ B1). subst d. split; auto. right. eauto.
      - destruct D2 as [w ->]. split.
        + apply logOK_snoc; auto. cbn. repeat split; eauto. discriminate.
        + intros d [(i & w' & H)|(i & x & w' & E & H1 & H2)].
          * apply in_app_or in H. destruct H as [H|[H|[]]]; [left; left; eauto|discriminate].
          * apply ISS in H2. apply in_app_or in H1. destruct H1 as [H1|[H1|[]]]; [|discriminate].
            left. right. exists i, x, w'. auto. }
    destruct Lo as [Lo1 Lo2].
    assert (NDo : NoDup (map fst (dones os)) /\ forall id op, In (id, op) (doneId o) -> ~ In id (map fst (dones os))).
    { unfold dones in ND. cbn [flat_map] in ND. destruct o; cbn in *; try (split; auto; fail).
      inversion ND; subst. split; auto. intros id op' [[= <- <-]|[]]. auto. }
    destruct NDo as [ND1 ND2].
    destruct (IH (l0 ++ outLog o)) as [R1 R2]; auto.
    + intros d H. apply Lo2 in H. destruct H as [H|[-> _]]; auto. now left.
    + eapply Forall_impl; [|exact B2]. intros x. apply outOK_ext. intros. now apply ISS.
    + intros id op H. destruct (D id op) as ((m & x & D1 & D2) & D3 & D4).
      { unfold dones; cbn [flat_map]. apply in_or_app; auto. }
      split; [exists m, x; split; auto; apply in_or_app; auto|].
      assert (NE : forall id' op', In (id', op') (doneId o) -> id' <> id).
      { intros id' op' H' ->. apply (ND2 _ _ H'). apply in_map_iff. exists (id, op). auto. }
      split; intros; intros HH; apply in_app_or in HH; destruct HH as [HH|HH];
        try (eapply D3; eauto; fail); try (eapply D4; eauto; fail);
        destruct o as [| |i [] []|]; cbn in HH; try tauto; destruct HH as [HH|[]];
        try discriminate; injection HH; intros; subst; cbn in NE; eapply NE; eauto.
    + intros v t H. destruct (V v t H) as [j X]. exists j. now apply ISS.
    + split; auto. intros d H. apply R2 in H. destruct H as [H|H]; auto.
      apply Lo2 in H. tauto.
Qed.

(* ---- a handler's effects are put in place ---- *)
Lemma fin_ok g n s' os l1 tid' del news :
  GI g -> n < cRD c ->
  logOK c l1 -> incl (gLog g) l1 ->
  (forall d, doneTs l1 d -> doneTs (gLog g) d) ->
  (forall id t v, Iss l1 id t v -> Iss (gLog g) id t v \/
     (id = gTid g /\ tcid t = n /\ ots s' = Some t /\ (cRD c <> 1 -> 1 <= tver t))) ->
  (forall e, In e l1 -> idOf e < tid') ->
  (forall id, unans (gLog g) id -> unans l1 id) ->
  (forall id op, In (id, op) news -> (exists o, In (LInv id n o) l1 /\ opm op o) /\ unans l1 id) ->
  post c (Iss l1) (Kn (gN g)) n (gN g n) s' news ->
  Forall (outOK c (Iss l1) n s') os -> Forall notIssue os -> dones os = dones (hOut s') ->
  GI (GS (upd (gN g) n (NS (hKey s') (hPend s') [])) (gNet g ++ flat_map (outNet c n) os) tid'
         (l1 ++ flat_map outLog os) (gDead g) del).
Proof.
  intros G nN L1 INC E2 E3 E4 E5 E6 [P1 P2 P3 P4 P5] OO NI DS.
  set (N' := upd (gN g) n (NS (hKey s') (hPend s') [])).
  assert (Nn : N' n = NS (hKey s') (hPend s') []) by (unfold N', upd; now rewrite Nat.eqb_refl).
  assert (No : forall m, m <> n -> N' m = gN g m).
  { intros m H. unfold N', upd. now rewrite (proj2 (Nat.eqb_neq _ _) H). }
  assert (On : ots (N' n) = ots s') by (rewrite Nn; reflexivity).
  assert (KM : forall a t, Kn (gN g) a t -> Kn N' a t).
  { intros a t H. unfold Kn in *. destruct (Nat.eq_dec a n) as [->|NE].
    - rewrite On. eapply ole_trans; eauto.
    - now rewrite No. }
  assert (FROM : forall id op, In (id, op) (dones os ++ pids (hPend s')) ->
     (exists o, In (LInv id n o) l1 /\ opm op o) /\ unans l1 id).
  { intros id op H. rewrite DS in H. apply P5 in H. apply in_app_or in H. destruct H as [H|H]; auto.
    apply in_map_iff in H. destruct H as (t & E & T). injection E as <- <-.
    destruct (g_pend _ G n t nN T) as ((o & A & B) & C). split; auto. exists o. auto. }
  assert (VAL : forall v t, validAs s' v t -> (exists j, Iss l1 j t v) /\
     forall a, a < cRD c -> Kn N' a t).
  { intros v t (k & H1 & H2 & <- & <-). pose proof (u_st _ _ _ _ _ P1 k H1) as Q. rewrite H2 in Q.
    destruct Q as [Q1 Q2]. split; auto. intros a A. destruct (Nat.eq_dec a n) as [->|NE].
    - unfold Kn. rewrite On. unfold ots. rewrite H1. now left.
    - auto. }
  assert (DN : forall t, doneTs l1 (Some t) -> forall a, a < cRD c -> Kn N' a t).
  { intros t H a A. apply KM. apply (g_done _ G); auto. }
  destruct (outs_log n s' os l1) as [R1 R2]; auto.
  { intros [t|] H; [|destruct (ots s'); [right; exact I|now left]].
    rewrite <- On. apply (DN t H n nN). }
  { rewrite DS. rewrite map_app in P4. clear - P4. induction (map fst (dones (hOut s'))); [constructor|].
    cbn in P4. inversion P4; subst. constructor; auto. intros H. apply H1. apply in_or_app; auto. }
  { intros id op H. destruct (FROM id op) as ((o & A & B) & C); [apply in_or_app; auto|]. split; auto.
    exists n, o. auto. }
  { intros v t H. apply VAL; auto. }
  assert (ISS : forall id t v, Iss (l1 ++ flat_map outLog os) id t v <-> Iss l1 id t v) by (apply iss_out; auto).
  assert (READS : forall m t, m < cRD c -> In t (hPend (gN g m)) -> tOp t = READ -> forall x v, ~ Iss l1 (tId t) x v).
  { intros m t M T O x v H. destruct (E3 _ _ _ H) as [H'|(H' & _)].
    - destruct (g_node _ G m M) as (_ & _ & NIm). destruct (u_rd _ _ _ _ _ NIm t T) as (_ & _ & Q).
      apply (Q O x v H').
    - destruct (g_pend _ G m t M T) as ((o & A & _) & _). pose proof (g_ids _ G _ A). cbn in H0. lia. }
  constructor; cbn [gLog gN gNet gTid gDead gDel].
  - auto.
  - intros m M. destruct (g_node _ G m M) as (D1 & D2 & D3). split; [auto|].
    destruct (Nat.eq_dec m n) as [->|NE].
    + rewrite Nn. split; auto. eapply (NIu_ext _ _ _ _ n s' _); try exact P1; auto.
      * intros; now apply ISS.
      * intros t T O x v H. apply ISS in H. destruct (u_rd _ _ _ _ _ P1 t T) as (_ & _ & Q). apply (Q O x v H).
    + rewrite No by auto. split; auto. eapply (NIu_ext _ _ _ _ m (gN g m) _); try exact D3; auto.
      * intros id t v H. apply ISS. apply INC. exact H.
      * intros t T O x v H. apply ISS in H. eapply READS; eauto.
  - intros m t M T. destruct (Nat.eq_dec m n) as [->|NE].
    + rewrite Nn in T. cbn in T.
      assert (TI : In (tId t, tOp t) (dones os ++ pids (hPend s'))).
      { apply in_or_app. right. apply in_map_iff. exists t. auto. }
      destruct (FROM _ _ TI) as ((o & A & B) & C1 & C2). split; [exists o; split; auto; apply in_or_app; auto|].
      assert (ND : forall op, ~ In (tId t, op) (dones os)).
      { intros op H. rewrite <- DS in P4. clear - P4 H T. rewrite map_app in P4. apply in_split in H. destruct H as (x & y & E).
        rewrite E in P4. rewrite map_app, <- app_assoc in P4. cbn in P4. apply NoDup_remove in P4. destruct P4 as [_ P4].
        apply P4. apply in_or_app. right. apply in_or_app. right. rewrite pids_fst. now apply in_map. }
      split; intros; intros H; apply in_app_or in H; destruct H as [H|H];
        try (eapply C1; eauto; fail); try (eapply C2; eauto; fail);
        apply in_flat_map in H; destruct H as (oo & H1 & H2);
        destruct oo as [| |i [] []|]; cbn in H2; try tauto; destruct H2 as [H2|[]]; try discriminate;
        injection H2; intros; subst; eapply ND; unfold dones; apply in_flat_map;
        eexists; (split; [exact H1|cbn; left; reflexivity]).
    + rewrite No in T by auto. destruct (g_pend _ G m t M T) as ((o & A & B) & C). apply E5 in C. destruct C as [C1 C2].
      split; [exists o; split; auto; apply in_or_app; left; apply INC; auto|].
      assert (ND : forall op, ~ In (tId t, op) (dones os)).
      { intros op H. destruct (FROM (tId t) op) as ((o' & F & _) & _); [apply in_or_app; auto|].
        apply INC in A. destruct (inv_fun l1 L1 _ _ _ _ _ A F). congruence. }
      split; intros; intros H; apply in_app_or in H; destruct H as [H|H];
        try (eapply C1; eauto; fail); try (eapply C2; eauto; fail);
        apply in_flat_map in H; destruct H as (oo & H1 & H2);
        destruct oo as [| |i [] []|]; cbn in H2; try tauto; destruct H2 as [H2|[]]; try discriminate;
        injection H2; intros; subst; eapply ND; unfold dones; apply in_flat_map;
        eexists; (split; [exact H1|cbn; left; reflexivity]).
  - intros e H. apply in_app_or in H. destruct H as [H|H]; [apply E4; auto|].
    assert (Q : exists op, In (idOf e, op) (dones os)).
    { apply in_flat_map in H. destruct H as (o & H1 & H2).
      rewrite Forall_forall in NI. pose proof (NI o H1) as NIo.
      destruct o as [| |i [] []|]; cbn in H2, NIo; try tauto; destruct H2 as [<-|[]]; cbn;
        eexists; unfold dones; apply in_flat_map; eexists; (split; [exact H1|cbn; left; reflexivity]). }
    destruct Q as [op Q]. destruct (FROM (idOf e) op) as ((o & A & _) & _); [apply in_or_app; auto|].
    apply E4 in A. exact A.
  - apply Forall_app. split.
    + eapply Forall_impl; [|exact (g_net _ G)]. intros (d & [f t v i|f t i|f t i]); cbn.
      * intros (A & B & C & D). repeat split; auto. apply ISS. apply INC. exact D.
      * intros ((v & A) & B & C & D & E). repeat split; auto. exists v. apply ISS. apply INC. exact A.
      * intros ((i' & v & A) & B). split; auto. exists i', v. apply ISS. apply INC. exact A.
    + apply Forall_forall. intros (d & m) H. apply in_flat_map in H. destruct H as (o & H1 & H2).
      rewrite Forall_forall in OO. pose proof (OO o H1) as Q.
      destruct o as [m'|d' m'|i op r|i t v]; cbn in H2; try tauto.
      * apply in_map_iff in H2. destruct H2 as (d' & [= -> ->] & H2). unfold others in H2.
        apply filter_In in H2. destruct H2 as [H2 H3]. apply negb_true_iff, Nat.eqb_neq in H3.
        destruct m as [f t v i|f t i|f t i]; cbn in Q; try contradiction.
        -- destruct Q as (-> & Q1 & Q2 & Q3). cbn. repeat split; auto. now apply ISS.
        -- destruct Q as (v & Q). destruct (VAL v t Q) as ((j & A) & B). cbn. split; auto. exists j, v. now apply ISS.
      * destruct H2 as [[= -> ->]|[]].
        destruct m as [f t v i|f t i|f t i]; cbn in Q; try contradiction.
        destruct Q as (-> & -> & Q1 & Q2 & v & Q3). cbn. repeat split; auto.
        -- exists v. now apply ISS.
        -- unfold Kn. rewrite On. exact Q2.
  - intros t H a A. apply R2 in H. destruct H as [H|[H|(v & t' & [= <-] & H)]]; [|discriminate|].
    + apply DN; auto.
    + apply (VAL v t H); auto.
  - intros id t v H. apply ISS in H. destruct (E3 _ _ _ H) as [H'|(A & B & C & D)].
    + destruct (g_iss _ G id t v H') as (A & B & C). repeat split; auto.
    + rewrite B. repeat split; auto. unfold Kn. rewrite On, C. now left.
Qed.

(* ---- a write is accepted at a key that is not busy ---- *)
Definition quietKey (s : nst) : Prop :=
  match hKey s with None => True | Some k => kSt k = SValid \/ kSt k = SInvalid end.

Lemma writeReq_post (I I' : nat -> ts -> option nat -> Prop) (K : nat -> ts -> Prop) n id v s :
  n < cRD c -> NIu c I K n s -> hOut s = [] -> quietKey s -> ~ In id (map tId (hPend s)) ->
  exists s' t os, writeReq c n id v s = HOk s' /\ hOut s' = OIssue id t v :: os /\ Forall notIssue os /\
    olt c (ots s) (Some t) /\ tcid t = n /\ ots s' = Some t /\ (cRD c <> 1 -> 1 <= tver t) /\
    ((forall i x w, I i x w -> I' i x w) -> I' id t v ->
     (forall u, In u (hPend s) -> tOp u = READ -> forall x w, ~ I' (tId u) x w) ->
     post c I' K n s (NS (hKey s') (hPend s') os) [(id, WRITE)]).
Proof.
  intros nN NI HO QK FR.
  assert (RDS : forall u, In u (hPend s) -> tOp u = READ).
  { intros u U. destruct (tOp u) eqn:O; auto.
    destruct (u_wr _ _ _ _ _ NI u U O) as (k & A & B & _). unfold quietKey in QK. rewrite A in QK.
    destruct QK; congruence. }
  assert (IDS := u_nodup _ _ _ _ _ NI).
  (* the common case *)
  assert (CONT : forall k s0, hKey s0 = Some k -> hPend s0 = hPend s -> hOut s0 = [] ->
    (hKey s = None \/ hKey s = Some k) ->
    let t1 := TS (S (tver (kTS k))) n in
    exists s' t os,
      bind (recordPending (newTicket id WRITE v t1 n false true)
              (emit (OIssue id t1 v) (setKey (KM t1 SWrite n v) s0)))
        (fun s2 => HOk (emit (OBcast (MInv n t1 v id)) s2)) = HOk s' /\
      hOut s' = OIssue id t v :: os /\ Forall notIssue os /\
      olt c (ots s) (Some t) /\ tcid t = n /\ ots s' = Some t /\ (cRD c <> 1 -> 1 <= tver t) /\
      ((forall i x w, I i x w -> I' i x w) -> I' id t v ->
       (forall u, In u (hPend s) -> tOp u = READ -> forall x w, ~ I' (tId u) x w) ->
       post c I' K n s (NS (hKey s') (hPend s') os) [(id, WRITE)])).
  { intros k s0 HK0 P0 O0 HK t1.
    rewrite recordPending_fresh by (cbn; rewrite P0; auto). cbn [bind].
    assert (LT : olt c (ots s) (Some t1)).
    { unfold ots. destruct HK as [-> | ->]; cbn; auto. apply tlt_succ. }
    eexists. exists t1. eexists. split; [reflexivity|].
    cbn [hOut emit setPend setKey]. rewrite O0. split; [reflexivity|].
    split; [repeat constructor|]. split; [exact LT|]. split; [reflexivity|]. split; [reflexivity|].
    split; [intros _; cbn; lia|].
    intros HI HT HR.
    assert (NDP : NoDup (map tId (hPend s ++ [inPQ true (newTicket id WRITE v t1 n false true)]))).
    { rewrite map_app. cbn. apply NoDup_Add with (a := id) (l := map tId (hPend s) ++ []).
      - apply Add_app.
      - rewrite app_nil_r. auto. }
    constructor; cbn [hPend hOut hKey emit setPend setKey]; rewrite ?P0, ?O0.
    - constructor; cbn [hPend hOut hKey emit setPend setKey]; rewrite ?P0.
      + exact NDP.
      + discriminate.
      + intros k' [= <-]. right. exists id. exact HT.
      + intros k' [= <-]. cbn. repeat split. eexists. split; [apply in_or_app; right; left; reflexivity|reflexivity].
      + intros u U. apply in_app_or in U. destruct U as [U|[<-|[]]].
        * destruct (u_rd _ _ _ _ _ NI u U) as (A & B & _). repeat split; auto.
        * cbn. repeat split. discriminate.
      + intros u U O. apply in_app_or in U. destruct U as [U|[<-|[]]]; [rewrite (RDS u U) in O; discriminate|].
        eexists. split; [reflexivity|]. cbn. repeat split; auto; try constructor; contradiction.
    - right. exact LT.
    - repeat constructor; cbn; auto.
    - cbn. rewrite pids_fst. exact NDP.
    - cbn. unfold pids. rewrite map_app. intros x H. apply in_app_or in H. destruct H as [H|[<-|[]]]; [right; exact H|left; reflexivity]. }
  unfold writeReq. destruct (hKey s) as [k|] eqn:HK.
  - unfold quietKey in QK. rewrite HK in QK.
    destruct QK as [E|E]; rewrite E; apply (CONT k s); auto.
  - destruct (Nat.eqb_spec (cRD c) 1) as [E|NE].
    + assert (PE : hPend s = []) by (apply (u_none _ _ _ _ _ NI); auto).
      eexists. exists (TS 0 n). eexists. split; [reflexivity|]. cbn. rewrite HO. cbn. split; [reflexivity|].
      split; [repeat constructor|]. unfold ots at 1. rewrite HK. cbn. split; [exact Logic.I|]. split; [reflexivity|]. split; [reflexivity|]. split; [lia|].
      intros HI HT HR. rewrite ?PE. constructor; cbn; rewrite ?PE, ?HO; cbn.
      * constructor; cbn; rewrite ?PE; try solve [constructor]; try contradiction; auto.
        -- intros k [= <-]. right. exists id. exact HT.
        -- intros k [= <-]. cbn. split; [exists id; exact HT|]. intros a A B. lia.
      * unfold ots. rewrite HK. right. exact Logic.I.
      * constructor; [|constructor]. cbn. split; auto.
        eexists. split; [reflexivity|]. cbn. auto.
      * constructor; [intros []|constructor].
      * intros x [<-|[]]. left. reflexivity.
    + cbn [kSt]. apply (CONT (KM (TS 0 n) SInvalid n v)
        (setKey (KM (TS 0 n) SInvalid n v) s)); auto.
Qed.

Lemma GI_init : GI ginit.
Proof.
  constructor; cbn; try contradiction; auto.
  - apply logOK_nil.
  - intros n L. repeat split; cbn; try constructor; try discriminate; try contradiction; auto.
  - intros t [(i & v & [])|(i & x & v & _ & [] & _)].
Qed.

Lemma unans_inv l id n o i : unans l i -> unans (l ++ [LInv id n o]) i.
Proof.
  intros [A B]. split; intros; intros H; apply in_app_or in H; destruct H as [H|[H|[]]]; try discriminate.
  - eapply A; eauto.
  - eapply B; eauto.
Qed.

Lemma unans_iss l id t v i : unans l i -> unans (l ++ [LIss id t v]) i.
Proof.
  intros [A B]. split; intros; intros H; apply in_app_or in H; destruct H as [H|[H|[]]]; try discriminate.
  - eapply A; eauto.
  - eapply B; eauto.
Qed.

Lemma fresh_unans g id : (forall e, In e (gLog g) -> idOf e < gTid g) -> gTid g <= id -> unans (gLog g) id.
Proof. intros H L. split; intros; intros X; apply H in X; cbn in X; lia. Qed.

Lemma step_ok g e : GI g -> noDeadline e = true -> quietNow g e = true -> GI (step c g e).
Proof.
  intros G ND Q. destruct e as [n v|n w|i|n id st]; [| | |discriminate].
  - (* write *)
    cbn [step]. destruct ((n <? cRD c) && negb (gDead g n)) eqn:AL; auto.
    apply andb_true_iff in AL. destruct AL as [AL _]. apply Nat.ltb_lt in AL.
    destruct (g_node _ G n AL) as (_ & HO & NI).
    set (id := gTid g) in *. set (l0 := gLog g) in *.
    assert (FRP : ~ In id (map tId (hPend (gN g n)))).
    { intros H. apply in_map_iff in H. destruct H as (t & E & T).
      destruct (g_pend _ G n t AL T) as ((o & A & _) & _). pose proof (g_ids _ G _ A) as B. cbn in B. unfold id in E. lia. }
    assert (QK : quietKey (gN g n)).
    { unfold quietKey. cbn in Q. destruct (hKey (gN g n)) as [k|]; auto. destruct (kSt k); try discriminate; auto. }
    assert (Lf : forall e, In e l0 -> idOf e <> id).
    { intros e H. pose proof (g_ids _ G _ H). unfold id. lia. }
    assert (H1 : exists s' t os, writeReq c n id v (gN g n) = HOk s' /\ hOut s' = OIssue id t v :: os /\ Forall notIssue os /\
      olt c (ots (gN g n)) (Some t) /\ tcid t = n /\ ots s' = Some t /\ (cRD c <> 1 -> 1 <= tver t) /\
      ((forall i x w, Iss l0 i x w -> Iss ((l0 ++ [LInv id n (OpW v)]) ++ [LIss id t v]) i x w) -> Iss ((l0 ++ [LInv id n (OpW v)]) ++ [LIss id t v]) id t v ->
       (forall u, In u (hPend (gN g n)) -> tOp u = READ -> forall x w, ~ Iss ((l0 ++ [LInv id n (OpW v)]) ++ [LIss id t v]) (tId u) x w) ->
       post c (Iss ((l0 ++ [LInv id n (OpW v)]) ++ [LIss id t v])) (Kn (gN g)) n (gN g n) (NS (hKey s') (hPend s') os) [(id, WRITE)])).
    { (* the timestamp is a function of the node's state *)
      assert (T : exists t, forall s', writeReq c n id v (gN g n) = HOk s' -> exists t' os, hOut s' = OIssue id t' v :: os /\ t' = t).
      { destruct (writeReq_post (Iss l0) (Iss l0) (Kn (gN g)) n id v (gN g n) AL NI HO QK FRP) as (s' & t & os & A & B & _).
        exists t. intros s1 E. rewrite A in E. injection E as <-. exists t, os. auto. }
      destruct T as [t T].
      destruct (writeReq_post (Iss l0) (Iss ((l0 ++ [LInv id n (OpW v)]) ++ [LIss id t v])) (Kn (gN g)) n id v (gN g n) AL NI HO QK FRP) as (s' & t' & os & A & B & C).
      destruct (T s' A) as (t2 & os2 & E & ->). rewrite B in E. injection E as -> ->. exists s', t, os2. auto. }
    destruct H1 as (s' & t & os & A & B & NIS & LT & TC & OS & VP & PO).
    set (l1 := (l0 ++ [LInv id n (OpW v)]) ++ [LIss id t v]) in *.
    assert (ISS1 : forall i x w, Iss l1 i x w -> Iss l0 i x w \/ (i = id /\ x = t /\ w = v)).
    { intros i x w H. unfold Iss, l1 in H. apply in_app_or in H. destruct H as [H|[H|[]]].
      - apply in_app_or in H. destruct H as [H|[H|[]]]; [left; exact H|discriminate].
      - injection H as -> -> ->. auto. }
    set (s2 := NS (hKey s') (hPend s') os) in *.
    assert (P : post c (Iss l1) (Kn (gN g)) n (gN g n) s2 [(id, WRITE)]).
    { apply PO.
      - intros i x w H. unfold Iss, l1. rewrite !in_app_iff. auto.
      - unfold Iss, l1. apply in_or_app. right. left. reflexivity.
      - intros u U O x w H. destruct (ISS1 _ _ _ H) as [H'|(E & _)].
        + destruct (u_rd _ _ _ _ _ NI u U) as (_ & _ & R). apply (R O _ _ H').
        + apply FRP. rewrite <- E. now apply in_map. }
    assert (DT0 : forall d, doneTs l0 d -> ole c d (ots (gN g n))).
    { intros [d|] H; [apply (g_done _ G d H n AL)|]. destruct (ots (gN g n)); [right; exact I|now left]. }
    unfold runAt. cbn [gN]. rewrite A, B.
    match goal with |- GI ?x => replace x with (GS (upd (gN g) n (NS (hKey s') (hPend s') [])) (gNet g ++ flat_map (outNet c n) os) (S id) (l1 ++ flat_map outLog os) (gDead g) (gDel g)) end.
    2:{ cbn [flat_map outNet outLog app gNet gTid gLog gDead gDel]. unfold l1, id, l0. f_equal.
        rewrite <- !app_assoc. reflexivity. }
    assert (D1 : forall d, doneTs (l0 ++ [LInv id n (OpW v)]) d -> doneTs l0 d).
    { intros d [(i & w & H)|(i & x & w & E & H & H')].
      - apply in_app_or in H. destruct H as [H|[H|[]]]; [left; eauto|discriminate].
      - apply in_app_or in H. destruct H as [H|[H|[]]]; [|discriminate].
        apply in_app_or in H'. destruct H' as [H'|[H'|[]]]; [|discriminate]. right. exists i, x, w. auto. }
    apply (fin_ok g n s2 os l1 (S id) (gDel g) [(id, WRITE)]); auto.
    + apply logOK_snoc; [apply logOK_snoc; [apply (g_log _ G)|]|].
      * cbn. exact Lf.
      * cbn. split; [exists n; apply in_or_app; right; left; reflexivity|]. split; [|split].
        -- intros t' v' H. apply in_app_or in H. destruct H as [H|[H|[]]]; [|discriminate]. apply (Lf _ H). reflexivity.
        -- intros i v' H. apply in_app_or in H. destruct H as [H|[H|[]]]; [|discriminate].
           destruct (g_iss _ G _ _ _ H) as (_ & KT & _). rewrite TC in KT.
           apply (ole_not_olt c inj _ _ KT LT).
        -- intros d H. apply D1 in H. apply DT0 in H. destruct H as [->|H]; auto. eapply olt_trans; eauto.
    + intros e H. unfold l1. rewrite !in_app_iff. auto.
    + intros d [(i & w & H)|(i & x & w & E & H & H')].
      * apply D1. unfold l1 in H. apply in_app_or in H. destruct H as [H|[H|[]]]; [left; eauto|discriminate].
      * unfold l1 in H. apply in_app_or in H. destruct H as [H|[H|[]]]; [|discriminate].
        apply in_app_or in H. destruct H as [H|[H|[]]]; [|discriminate].
        destruct (ISS1 _ _ _ H') as [H2|(-> & _)].
        -- right. exists i, x, w. auto.
        -- exfalso. apply (Lf _ H). reflexivity.
    + intros i x w H. destruct (ISS1 _ _ _ H) as [H'|(-> & -> & ->)]; auto.
    + intros e H. unfold l1 in H. rewrite !in_app_iff in H. destruct H as [[H|[<-|[]]]|[<-|[]]]; cbn; auto.
      pose proof (g_ids _ G _ H). unfold id. lia.
    + intros i H. unfold l1. apply unans_iss, unans_inv. exact H.
    + intros i op [H|[]]. injection H as <- <-. split.
      * exists (OpW v). split; [unfold l1; rewrite !in_app_iff; cbn; auto|]. exists v. auto.
      * apply unans_iss, unans_inv. apply fresh_unans; auto. apply (g_ids _ G).
    + apply (p_out _ _ _ _ _ _ _ P).
  - (* read *)
    cbn [step]. destruct ((n <? cRD c) && negb (gDead g n)) eqn:AL; auto.
    apply andb_true_iff in AL. destruct AL as [AL _]. apply Nat.ltb_lt in AL.
    destruct (g_node _ G n AL) as (_ & HO & NI).
    set (id := gTid g) in *. set (l0 := gLog g) in *.
    assert (FRP : ~ In id (map tId (hPend (gN g n)))).
    { intros H. apply in_map_iff in H. destruct H as (t & E & T).
      destruct (g_pend _ G n t AL T) as ((o & A & _) & _). pose proof (g_ids _ G _ A) as B. cbn in B. unfold id in E. lia. }
    assert (Lf : forall e, In e l0 -> idOf e <> id).
    { intros e H. pose proof (g_ids _ G _ H). unfold id. lia. }
    set (l1 := l0 ++ [LInv id n OpR]).
    assert (ISS1 : forall i x w, Iss l1 i x w <-> Iss l0 i x w).
    { intros i x y. unfold Iss, l1. rewrite in_app_iff. split; auto. intros [H|[H|[]]]; auto. discriminate. }
    assert (L1 : logOK c l1).
    { apply logOK_snoc; [apply (g_log _ G)|]. cbn. exact Lf. }
    assert (NI1 : NIu c (Iss l1) (Kn (gN g)) n (gN g n)).
    { eapply NIu_ext; try exact NI; auto.
      - intros; now apply ISS1.
      - intros t T O x v H. apply ISS1 in H. destruct (u_rd _ _ _ _ _ NI t T) as (_ & _ & R). apply (R O _ _ H). }
    destruct (readReq_post c (Iss l1) (Kn (gN g)) n (gN g n) id w NI1 HO FRP) as (s' & A & P).
    { intros x v H. apply ISS1 in H. apply (Lf _ H). reflexivity. }
    unfold runAt. cbn [gN]. rewrite A.
    assert (NIS : Forall notIssue (hOut s')) by (eapply outOK_notIssue; apply (p_out _ _ _ _ _ _ _ P)).
    assert (P' := P). destruct P' as [_ _ PO' _ _].
    apply (fin_ok g n s' (hOut s') l1 (S id) (gDel g) [(id, READ)]); auto.
    + intros e H. unfold l1. rewrite in_app_iff. auto.
    + intros d [(i & x & H)|(i & x & y & E & H & H')].
      * apply in_app_or in H. destruct H as [H|[H|[]]]; [left; eauto|discriminate].
      * apply in_app_or in H. destruct H as [H|[H|[]]]; [|discriminate].
        apply ISS1 in H'. right. exists i, x, y. auto.
    + intros i x y H. apply ISS1 in H. auto.
    + intros e H. unfold l1 in H. rewrite in_app_iff in H. destruct H as [H|[<-|[]]]; cbn; auto.
      pose proof (g_ids _ G _ H). unfold id. lia.
    + intros i H. apply unans_inv. exact H.
    + intros i op [H|[]]. injection H as <- <-. split.
      * exists OpR. split; [unfold l1; rewrite in_app_iff; cbn; auto|reflexivity].
      * apply unans_inv. apply fresh_unans; auto. apply (g_ids _ G).
  - (* a message *)
    cbn [step]. destruct (nth_error (gNet g) i) as [(n & m)|] eqn:NT; auto.
    destruct ((n <? cRD c) && negb (gDead g n)) eqn:AL; auto.
    apply andb_true_iff in AL. destruct AL as [AL _]. apply Nat.ltb_lt in AL.
    destruct (g_node _ G n AL) as (_ & HO & NI).
    pose proof (g_log _ G) as L.
    assert (MO : msgOK (gLog g) (gN g) (n, m)).
    { pose proof (g_net _ G) as F. rewrite Forall_forall in F. apply F. eapply nth_error_In; eauto. }
    assert (H1 : exists s', handle c n m (gN g n) = HOk s' /\ post c (Iss (gLog g)) (Kn (gN g)) n (gN g n) s' []).
    { destruct m as [f t v tid|f t tid|f t tid]; cbn in MO; cbn [handle].
      - destruct MO as (M1 & M2 & M3 & M4). apply recvInv_post; auto.
        intros; eapply iss_fun2; eauto.
      - destruct MO as ((v & M1) & M2 & M3 & M4 & M5).
        eapply recvAck_post; eauto; try congruence.
        + intros; eapply iss_fun2; eauto.
        + destruct (g_iss _ G _ _ _ M1) as (_ & KT & _). rewrite <- M2 in KT. exact KT.
      - destruct MO as ((j & v & M1) & M2). eapply recvVal_post; eauto.
        + intros X j' t' v' H. apply (g_iss _ G _ _ _ H); auto.
        + apply M2; auto. }
    destruct H1 as (s' & A & P). unfold runAt. cbn [gN]. rewrite A.
    assert (P' := P). destruct P' as [_ _ PO' _ _].
    assert (NIS : Forall notIssue (hOut s')) by (eapply outOK_notIssue; apply (p_out _ _ _ _ _ _ _ P)).
    apply (fin_ok g n s' (hOut s') (gLog g) (gTid g) (gDel g ++ [i]) []); auto.
    + intros e H; exact H.
    + apply (g_ids _ G).
    + intros ? ? [].
Qed.

Lemma run_ok es : forall g, GI g -> calm c g es = true -> GI (run c g es).
Proof.
  induction es as [|e es IH]; cbn [run calm]; intros g G H; auto.
  apply andb_true_iff in H. destruct H as [H H3]. apply andb_true_iff in H. destruct H as [H1 H2].
  apply IH; auto. apply step_ok; auto.
Qed.

Theorem uni_linearizable es : calm c ginit es = true ->
  wellformed (hist c es) /\ linearizable (hist c es).
Proof.
  intros H. assert (G : GI (run c ginit es)) by (apply run_ok; auto using GI_init).
  unfold hist. split.
  - eapply logOK_wellformed. apply (g_log _ G).
  - eapply logOK_linearizable; [exact inj|]. apply (g_log _ G).
Qed.

Theorem uni_no_panic es n : calm c ginit es = true -> n < cRD c -> gDead (run c ginit es) n = false.
Proof.
  intros H L. assert (G : GI (run c ginit es)) by (apply run_ok; auto using GI_init).
  apply (g_node _ G n L).
Qed.
End G.
