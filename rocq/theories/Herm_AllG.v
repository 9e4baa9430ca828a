(* Every execution of the cluster: answers come once, after the request,
   and values that are read were written. *)

From Coq Require Import List Arith Bool Lia.
Import ListNotations.
From Verif Require Import Herm_Spec Herm_Model Herm_Order Herm_Lin Herm_Tick Herm_Uni Herm_All.

Definition wr (l : list lev) (v : option nat) : Prop :=
  match v with None => True | Some x => exists j n, In (LInv j n (OpW (Some x))) l end.

Definition noans (l : list lev) (id : nat) : Prop :=
  (forall v t, ~ In (LRRes id v t) l) /\ (forall b, ~ In (LWRes id b) l).

Definition snocA (l : list lev) (e : lev) : Prop :=
  match e with
  | LInv id _ _ => forall e', In e' l -> idOf e' <> id
  | LIss _ _ _ => True
  | LRRes id v _ => (exists n o, In (LInv id n o) l) /\ noans l id /\ wr l v
  | LWRes id _ => (exists n o, In (LInv id n o) l) /\ noans l id
  end.

Definition LP (l : list lev) : Prop := forall i e, nth_error l i = Some e -> snocA (firstn i l) e.

Lemma LP_snoc l e : LP l -> snocA l e -> LP (l ++ [e]).
Proof.
  intros H S i x N. destruct (Nat.lt_ge_cases i (length l)) as [L|L].
  - rewrite nth_error_app1 in N by auto.
    rewrite firstn_app, (proj2 (Nat.sub_0_le i (length l))) by lia. cbn. rewrite app_nil_r. eauto.
  - rewrite nth_error_app2 in N by auto.
    destruct (i - length l) as [|k] eqn:E; cbn in N.
    + injection N as <-. assert (i = length l) by lia. subst.
      rewrite firstn_app, firstn_all, Nat.sub_diag. cbn. now rewrite app_nil_r.
    + destruct k; discriminate.
Qed.

Lemma LP_inv_fun l id n o n' o' : LP l -> In (LInv id n o) l -> In (LInv id n' o') l -> n = n'.
Proof.
  intros H A B. apply In_nth_error in A. apply In_nth_error in B. destruct A as [i A], B as [j B].
  assert (X : forall i j e e', nth_error l i = Some e -> nth_error l j = Some e' -> i < j -> (exists a b, e' = LInv id a b) -> idOf e <> id).
  { intros i0 j0 e e' E1 E2 L (a & b & ->). pose proof (H j0 _ E2) as S. cbn in S. apply S. apply in_firstn. eauto. }
  destruct (lt_eq_lt_dec i j) as [[L|E]|L].
  - exfalso. eapply (X i j); eauto.
  - subst j. congruence.
  - exfalso. eapply (X j i); eauto.
Qed.

Lemma outsA B : forall os l0, LP l0 -> Forall (outV (wr l0) B) os -> NoDup (map fst (dones os)) ->
  (forall id, In id (map fst (dones os)) -> (exists n o, In (LInv id n o) l0) /\ noans l0 id) ->
  LP (l0 ++ flat_map outLog os).
Proof.
  induction os as [|o os IH]; intros l0 L V ND D; cbn [flat_map]; [now rewrite app_nil_r|].
  inversion V as [|x y V1 V2]; subst. rewrite app_assoc.
  assert (WX : forall v, wr l0 v -> wr (l0 ++ outLog o) v).
  { intros [v|]; cbn; auto. intros (j & n & X). exists j, n. apply in_or_app; auto. }
  assert (Lo : LP (l0 ++ outLog o)).
  { destruct o as [m|x m|id op r|id t v]; cbn [outLog]; rewrite ?app_nil_r; auto.
    - destruct (D id) as [D1 D2]; [cbn; auto|].
      destruct op, r; rewrite ?app_nil_r; auto; apply LP_snoc; auto; cbn; auto.
    - apply LP_snoc; auto. exact I. }
  assert (NDo : NoDup (map fst (dones os)) /\ forall id op, In (id, op) (doneId o) -> ~ In id (map fst (dones os))).
  { unfold dones in ND. cbn [flat_map] in ND. destruct o; cbn in *; try (split; auto; fail).
    inversion ND; subst. split; auto. intros id op' [[= <- <-]|[]]. auto. }
  destruct NDo as [ND1 ND2].
  apply IH; auto.
  - eapply Forall_impl; [|exact V2]. intros [[]|? []|? ? []|]; cbn; auto; try (intros [? ?]; auto).
  - intros id H. destruct (D id) as ((n & x & D1) & D3 & D4).
    { unfold dones; cbn [flat_map]. rewrite map_app. apply in_or_app; auto. }
    split; [exists n, x; apply in_or_app; auto|].
    assert (NE : forall id' op', In (id', op') (doneId o) -> id' <> id).
    { intros id' op' H' ->. apply (ND2 _ _ H'). auto. }
    split; intros; intros HH; apply in_app_or in HH; destruct HH as [HH|HH];
      try (eapply D3; eauto; fail); try (eapply D4; eauto; fail);
      destruct o as [| |i [] []|]; cbn in HH; try tauto; destruct HH as [HH|[]];
      try discriminate; injection HH; intros; subst; cbn in NE; eapply NE; eauto.
Qed.

Definition own (l : list lev) (n id : nat) : Prop := (exists o, In (LInv id n o) l) /\ noans l id.

Lemma own_out n m l os : LP l -> m <> n ->
  (forall id, In id (map fst (dones os)) -> own l n id) ->
  forall id, own l m id -> own (l ++ flat_map outLog os) m id.
Proof.
  intros L NE D id ((o & A) & C1 & C2). split; [exists o; apply in_or_app; auto|].
  assert (ND : ~ In id (map fst (dones os))).
  { intros H. destruct (D id H) as ((o' & A') & _). apply NE. eapply LP_inv_fun; eauto. }
  split; intros; intros H; apply in_app_or in H; destruct H as [H|H];
    try (eapply C1; eauto; fail); try (eapply C2; eauto; fail);
    apply in_flat_map in H; destruct H as (oo & H1 & H2);
    destruct oo as [| |i [] []|]; cbn in H2; try tauto; destruct H2 as [H2|[]]; try discriminate;
    injection H2; intros; subst; apply ND; apply in_map_iff; eexists;
    (split; [|unfold dones; apply in_flat_map; eexists; split; [exact H1|cbn; left; reflexivity]]; reflexivity).
Qed.

Lemma own_out_self n l os : forall id, own l n id -> ~ In id (map fst (dones os)) ->
  own (l ++ flat_map outLog os) n id.
Proof.
  intros id ((o & A) & C1 & C2) ND. split; [exists o; apply in_or_app; auto|].
  split; intros; intros H; apply in_app_or in H; destruct H as [H|H];
    try (eapply C1; eauto; fail); try (eapply C2; eauto; fail);
    apply in_flat_map in H; destruct H as (oo & H1 & H2);
    destruct oo as [| |i [] []|]; cbn in H2; try tauto; destruct H2 as [H2|[]]; try discriminate;
    injection H2; intros; subst; apply ND; apply in_map_iff; eexists;
    (split; [|unfold dones; apply in_flat_map; eexists; split; [exact H1|cbn; left; reflexivity]]; reflexivity).
Qed.

Definition msgV (W : option nat -> Prop) (B : nat -> Prop) (m : msg) : Prop :=
  match m with MInv _ _ v id => W v /\ B id | MAck _ _ id | MVal _ _ id => B id end.

Record GA (g : gst) : Prop := {
  a_log : LP (gLog g);
  a_out : forall n, hOut (gN g n) = [];
  a_node : forall n, R (wr (gLog g)) (own (gLog g) n) (fun i => i < gTid g) (gN g n);
  a_ids : forall e, In e (gLog g) -> idOf e < gTid g;
  a_net : forall d m, In (d, m) (gNet g) -> msgV (wr (gLog g)) (fun i => i < gTid g) m }.

Lemma R_weaken (W W' : option nat -> Prop) (Q Q' B B' : nat -> Prop) s s' :
  (forall v, W v -> W' v) -> (forall i, B i -> B' i) ->
  hKey s' = hKey s -> hPend s' = hPend s -> hOut s' = [] ->
  (forall i, In i (live (hPend s)) -> Q' i) ->
  R W Q B s -> R W' Q' B' s'.
Proof.
  intros HW HB E1 E2 E3 HQ [A1 A2 A3 A4 A5 A6 A7].
  constructor; rewrite ?E1, ?E2, ?E3; auto.
  - unfold dids. rewrite E3. cbn. apply nodup_app_iff in A6. tauto.
  - unfold dids. rewrite E3. cbn. auto.
Qed.

Section G.
Variable c : cfg.

Lemma finA g n s' l1 tid' del dead :
  GA g -> LP l1 -> incl (gLog g) l1 ->
  (forall m id, own (gLog g) m id -> own l1 m id) ->
  (forall e, In e l1 -> idOf e < tid') -> gTid g <= tid' ->
  R (wr l1) (own l1 n) (fun i => i < tid') s' ->
  GA (GS (upd (gN g) n (NS (hKey s') (hPend s') [])) (gNet g ++ flat_map (outNet c n) (hOut s')) tid'
         (l1 ++ flat_map outLog (hOut s')) dead del).
Proof.
  intros G L1 INC OW ID TT Rs.
  assert (OWN : forall id, In id (map fst (dones (hOut s'))) -> own l1 n id).
  { intros id H. apply (r_q _ _ _ _ Rs). apply in_or_app. left. exact H. }
  assert (WX : forall v, wr (gLog g) v -> wr (l1 ++ flat_map outLog (hOut s')) v).
  { intros [v|]; cbn; auto. intros (j & m & X). exists j, m. apply in_or_app. left. auto. }
  assert (WX1 : forall v, wr l1 v -> wr (l1 ++ flat_map outLog (hOut s')) v).
  { intros [v|]; cbn; auto. intros (j & m & X). exists j, m. apply in_or_app. left. auto. }
  pose proof (r_nd _ _ _ _ Rs) as ND. apply nodup_app_iff in ND. destruct ND as (ND1 & ND2 & ND3).
  constructor; cbn [gLog gN gNet gTid gDead gDel].
  - eapply outsA; auto.
    + apply (r_out _ _ _ _ Rs).
    + intros id H. destruct (OWN id H) as ((o & A) & B). split; auto. exists n, o. auto.
  - intros m. unfold upd. destruct (m =? n); auto. apply (a_out _ G).
  - intros m. unfold upd. destruct (Nat.eqb_spec m n) as [->|NE].
    + eapply (R_weaken _ _ _ _ _ _ s' _ WX1); try exact Rs; auto.
      intros i H. apply own_out_self.
      * apply (r_q _ _ _ _ Rs). apply in_or_app. auto.
      * intros X. eapply ND3; eauto.
    + eapply (R_weaken _ _ _ _ _ _ (gN g m) _ WX); try exact (a_node _ G m); auto.
      * cbn. intros i H. lia.
      * apply (a_out _ G).
      * intros i H. eapply own_out; eauto. apply OW. apply (r_q _ _ _ _ (a_node _ G m)). apply in_or_app; auto.
  - intros e H. apply in_app_or in H. destruct H as [H|H]; auto.
    apply in_flat_map in H. destruct H as (o & H1 & H2).
    destruct o as [| |i op r|i t v]; cbn in H2; try contradiction.
    + assert (X : own l1 n i).
      { apply OWN. apply in_map_iff. exists (i, op). split; auto. unfold dones. apply in_flat_map. eexists; split; [exact H1|cbn; auto]. }
      destruct X as ((o & A) & _). apply ID in A. cbn in A.
      destruct op, r; cbn in H2; try contradiction; destruct H2 as [<-|[]]; exact A.
    + pose proof (r_out _ _ _ _ Rs) as F. rewrite Forall_forall in F. pose proof (F _ H1) as X. cbn in X.
      destruct H2 as [<-|[]]. exact X.
  - intros d m H. apply in_app_or in H. destruct H as [H|H].
    + pose proof (a_net _ G d m H) as X. destruct m; cbn in *; try lia. destruct X; split; auto; lia.
    + apply in_flat_map in H. destruct H as (o & H1 & H2).
      pose proof (r_out _ _ _ _ Rs) as F. rewrite Forall_forall in F. pose proof (F _ H1) as X.
      destruct o as [m'|d' m'|i op r|i t v]; cbn in H2; try contradiction.
      * apply in_map_iff in H2. destruct H2 as (d' & [= -> ->] & _). destruct m; cbn in *; auto. destruct X; auto.
      * destruct H2 as [[= -> ->]|[]]. destruct m; cbn in *; auto. destruct X; auto.
Qed.

Lemma noans_inv l id n o i : noans l i -> noans (l ++ [LInv id n o]) i.
Proof.
  intros [A B]. split; intros; intros H; apply in_app_or in H; destruct H as [H|[H|[]]]; try discriminate.
  - eapply A; eauto.
  - eapply B; eauto.
Qed.

Lemma GA_init : GA ginit.
Proof.
  constructor; cbn; try contradiction; auto.
  - intros [|i] e; discriminate.
  - intros n. constructor; cbn; try constructor; try discriminate; try contradiction.
Qed.

Lemma runAt_ok g n h l1 tid' :
  GA g -> LP l1 -> incl (gLog g) l1 ->
  (forall m id, own (gLog g) m id -> own l1 m id) ->
  (forall e, In e l1 -> idOf e < tid') -> gTid g <= tid' -> forall del,
  rv (wr l1) (own l1 n) (fun i => i < tid') (h (gN g n)) ->
  GA (runAt c n h (GS (gN g) (gNet g) tid' l1 (gDead g) del)).
Proof.
  intros G L1 INC OW ID TT del H. unfold runAt. cbn [gN gNet gTid gLog gDead gDel].
  destruct (h (gN g n)) as [s|s]; cbn in H; apply finA; auto.
Qed.

Lemma stepA g e : GA g -> GA (step c g e).
Proof.
  intros G.
  assert (INVK : forall n o, LP (gLog g ++ [LInv (gTid g) n o]) /\
     (forall m id, own (gLog g) m id -> own (gLog g ++ [LInv (gTid g) n o]) m id) /\
     (forall e, In e (gLog g ++ [LInv (gTid g) n o]) -> idOf e < S (gTid g)) /\
     own (gLog g ++ [LInv (gTid g) n o]) n (gTid g) /\
     R (wr (gLog g ++ [LInv (gTid g) n o])) (own (gLog g ++ [LInv (gTid g) n o]) n) (fun i => i < S (gTid g)) (gN g n) /\
     ~ In (gTid g) (map tId (hPend (gN g n))) /\ ~ In (gTid g) (dids (gN g n))).
  { intros n o. repeat apply conj.
    - apply LP_snoc; [apply (a_log _ G)|]. cbn. intros e' H. pose proof (a_ids _ G _ H). lia.
    - intros m id ((o' & A) & B). split; [exists o'; apply in_or_app; auto|now apply noans_inv].
    - intros e' H. apply in_app_or in H. destruct H as [H|[<-|[]]]; cbn; auto. pose proof (a_ids _ G _ H). lia.
    - exists o. apply in_or_app. right. left. auto.
    - intros v t H. apply in_app_or in H. destruct H as [H|[H|[]]]; [|discriminate]. pose proof (a_ids _ G _ H) as X. cbn in X. lia.
    - intros b H. apply in_app_or in H. destruct H as [H|[H|[]]]; [|discriminate]. pose proof (a_ids _ G _ H) as X. cbn in X. lia.
    - eapply (R_weaken (wr (gLog g)) _ _ _ _ _ (gN g n)); try exact (a_node _ G n); auto.
      + intros [v|]; cbn; auto. intros (j & m & X). exists j, m. apply in_or_app; auto.
      + apply (a_out _ G).
      + intros i H. destruct (r_q _ _ _ _ (a_node _ G n) i) as ((o' & A) & B); [apply in_or_app; auto|].
        split; [exists o'; apply in_or_app; auto|now apply noans_inv].
    - intros H. apply in_map_iff in H. destruct H as (t & E & T). pose proof (r_b _ _ _ _ (a_node _ G n) t T) as X. cbn in X. lia.
    - unfold dids. rewrite (a_out _ G). auto. }
  assert (W0 : forall l, wr l None) by (intros; exact I).
  destruct e as [n v|n w|i|n id st]; cbn [step].
  - destruct ((n <? cRD c) && negb (gDead g n)); auto.
    destruct (INVK n (OpW v)) as (A1 & A2 & A3 & A4 & A5 & A6 & A7).
    apply runAt_ok; auto.
    + intros x X. apply in_or_app; auto.
    + apply R_write; auto. destruct v as [v|]; cbn; auto. exists (gTid g), n. apply in_or_app. right. left. auto.
  - destruct ((n <? cRD c) && negb (gDead g n)); auto.
    destruct (INVK n OpR) as (A1 & A2 & A3 & A4 & A5 & A6 & A7).
    apply runAt_ok; auto.
    + intros x X. apply in_or_app; auto.
    + apply R_read; auto.
  - destruct (nth_error (gNet g) i) as [(n & m)|] eqn:NT; auto.
    destruct ((n <? cRD c) && negb (gDead g n)); auto.
    apply nth_error_In in NT. pose proof (a_net _ G _ _ NT) as MV.
    apply runAt_ok; auto.
    + apply (a_log _ G).
    + apply incl_refl.
    + apply (a_ids _ G).
    + pose proof (a_node _ G n) as RN. destruct m; cbn [handle] in *; cbn in MV.
      * apply R_inv; tauto || auto.
      * apply R_ack; auto.
      * apply R_val; auto.
  - destruct ((n <? cRD c) && negb (gDead g n)); auto.
    assert (X : GA (runAt c n (deadline c n id st) (GS (gN g) (gNet g) (gTid g) (gLog g) (gDead g) (gDel g)))).
    { apply runAt_ok; auto.
      - apply (a_log _ G).
      - apply incl_refl.
      - apply (a_ids _ G).
      - apply R_deadline; auto. apply (a_node _ G). }
    destruct g. exact X.
Qed.

Lemma runA es : forall g, GA g -> GA (run c g es).
Proof. induction es; cbn; auto. intros g G. apply IHes. now apply stepA. Qed.

Theorem all_wellformed es : wellformed (hist c es).
Proof.
  pose proof (a_log _ (runA es ginit GA_init)) as L. unfold hist. set (lg := gLog _) in *.
  split.
  - intros h1 h2 i n o E. apply hist_split in E. destruct E as (l1 & e & l2 & E1 & E2 & E3 & _).
    apply h1_inv in E2. subst e.
    pose proof (L (length l1) (LInv i n o)) as S. rewrite E1, nth_error_app2, Nat.sub_diag in S by lia.
    specialize (S eq_refl). rewrite firstn_app, firstn_all, Nat.sub_diag in S. cbn in S. rewrite app_nil_r in S.
    split.
    + intros n' o' H. subst h1. apply hist_in in H. destruct H as (e & H1 & H2). apply h1_inv in H2. subst e. apply (S _ H1). auto.
    + intros a H. subst h1. apply hist_in in H. destruct H as (e & H1 & H2).
      assert (idOf e = i); [|apply (S _ H1); auto].
      destruct e as [| | |? []]; cbn in H2; try discriminate; injection H2; auto.
  - intros h1 h2 i a E. apply hist_split in E. destruct E as (l1 & e & l2 & E1 & E2 & E3 & _).
    pose proof (L (length l1) e) as S. rewrite E1, nth_error_app2, Nat.sub_diag in S by lia.
    specialize (S eq_refl). rewrite firstn_app, firstn_all, Nat.sub_diag in S. cbn in S. rewrite app_nil_r in S.
    assert (X : (exists n o, In (LInv i n o) l1) /\ noans l1 i).
    { destruct e as [| |? ? ?|? []]; cbn in E2; try discriminate; injection E2; intros; subst; cbn in S; tauto. }
    destruct X as ((n & o & X) & N1 & N2). rewrite <- E3. split.
    + exists n, o. apply hist_in. eexists; split; [exact X|reflexivity].
    + intros a' H. apply hist_in in H. destruct H as (e' & H1 & H2).
      destruct e' as [| |? ? ?|? []]; cbn in H2; try discriminate; injection H2; intros; subst; [eapply N1|eapply N2|eapply N2]; eauto.
Qed.

Theorem all_no_invention es : no_invention (hist c es).
Proof.
  pose proof (a_log _ (runA es ginit GA_init)) as L. unfold hist. set (lg := gLog _) in *.
  intros h1 h2 i v E. apply hist_split in E. destruct E as (l1 & e & l2 & E1 & E2 & E3 & _).
  apply h1_okr in E2. destruct E2 as [t ->].
  pose proof (L (length l1) (LRRes i (Some v) t)) as S. rewrite E1, nth_error_app2, Nat.sub_diag in S by lia.
  specialize (S eq_refl). rewrite firstn_app, firstn_all, Nat.sub_diag in S. cbn in S. rewrite app_nil_r in S.
  destruct S as (_ & _ & j & n & X). exists j, n. rewrite <- E3. apply hist_in. eexists; split; [exact X|reflexivity].
Qed.

(* ---- a request no node holds is never answered ---- *)
Record LO (x : nat) (g : gst) : Prop := {
  lo_id : x < gTid g;
  lo_no : noans (gLog g) x;
  lo_pd : forall n, ~ In x (live (hPend (gN g n))) }.

Lemma lo_R x g n : GA g -> LO x g -> R (fun _ => True) (fun i => i <> x) (fun _ => True) (gN g n).
Proof.
  intros G L. pose proof (a_node _ G n) as H. destruct H. constructor; auto.
  - rewrite (a_out _ G). constructor.
  - unfold dids. rewrite (a_out _ G). cbn. intros id H E. subst id. now apply (lo_pd _ _ L n).
Qed.

Lemma lo_fin x g n s' l1 tid' del dead : LO x g -> gTid g <= tid' -> noans l1 x ->
  R (fun _ => True) (fun i => i <> x) (fun _ => True) s' ->
  LO x (GS (upd (gN g) n (NS (hKey s') (hPend s') [])) (gNet g ++ flat_map (outNet c n) (hOut s')) tid'
         (l1 ++ flat_map outLog (hOut s')) dead del).
Proof.
  intros L TT NA Rs. constructor; cbn [gTid gLog gN].
  - pose proof (lo_id _ _ L). lia.
  - assert (X : forall e, In e (flat_map outLog (hOut s')) -> (exists v t, e = LRRes x v t) \/ (exists b, e = LWRes x b) -> False).
    { intros e H E. apply in_flat_map in H. destruct H as (o & H1 & H2).
      destruct o as [| |i op r|i t v]; cbn in H2; try contradiction.
      - assert (i <> x).
        { apply (r_q _ _ _ _ Rs). apply in_or_app. left. unfold dids, dones. apply in_map_iff. exists (i, op).
          split; auto. apply in_flat_map. eexists; split; [exact H1|cbn; auto]. }
        destruct op, r; cbn in H2; try contradiction; destruct H2 as [<-|[]];
          destruct E as [(? & ? & E)|(? & E)]; try discriminate; injection E; intros; subst; congruence.
      - destruct H2 as [<-|[]]. destruct E as [(? & ? & E)|(? & E)]; discriminate. }
    destruct NA as [N1 N2]. split.
    + intros v t H. apply in_app_or in H. destruct H as [H|H]; [eapply N1; eauto|]. eapply X; eauto.
    + intros b H. apply in_app_or in H. destruct H as [H|H]; [eapply N2; eauto|]. eapply X; eauto.
  - intros m. unfold upd. destruct (m =? n); [|apply (lo_pd _ _ L)]. cbn. intros H.
    apply (r_q _ _ _ _ Rs x); auto. apply in_or_app. auto.
Qed.

Lemma lo_runAt x g n h l1 tid' del : LO x g -> gTid g <= tid' -> noans l1 x ->
  rv (fun _ => True) (fun i => i <> x) (fun _ => True) (h (gN g n)) ->
  LO x (runAt c n h (GS (gN g) (gNet g) tid' l1 (gDead g) del)).
Proof.
  intros L TT NA H. unfold runAt. cbn [gN gNet gTid gLog gDead gDel].
  destruct (h (gN g n)) as [s|s]; cbn in H; apply lo_fin; auto.
Qed.

Lemma lo_step x g e : GA g -> LO x g -> LO x (step c g e).
Proof.
  intros G L. pose proof (lo_id _ _ L) as LI. pose proof (lo_no _ _ L) as LN.
  assert (FR : forall n, ~ In (gTid g) (map tId (hPend (gN g n))) /\ ~ In (gTid g) (dids (gN g n))).
  { intros n. split.
    - intros H. apply in_map_iff in H. destruct H as (t & E & T). pose proof (r_b _ _ _ _ (a_node _ G n) t T) as X. cbn in X. lia.
    - unfold dids. rewrite (a_out _ G). auto. }
  assert (NE : gTid g <> x) by lia.
  destruct e as [n v|n w|i|n id st]; cbn [step].
  - destruct ((n <? cRD c) && negb (gDead g n)); auto. destruct (FR n).
    apply lo_runAt; auto. apply noans_inv; auto. apply R_write; auto. apply lo_R; auto.
  - destruct ((n <? cRD c) && negb (gDead g n)); auto. destruct (FR n).
    apply lo_runAt; auto. apply noans_inv; auto. apply R_read; auto. apply lo_R; auto.
  - destruct (nth_error (gNet g) i) as [(n & m)|] eqn:NT; auto.
    destruct ((n <? cRD c) && negb (gDead g n)); auto.
    apply lo_runAt; auto. pose proof (lo_R x g n G L) as RN. destruct m; cbn [handle].
    + apply R_inv; auto.
    + apply R_ack; auto.
    + apply R_val; auto.
  - destruct ((n <? cRD c) && negb (gDead g n)); auto.
    assert (X : LO x (runAt c n (deadline c n id st) (GS (gN g) (gNet g) (gTid g) (gLog g) (gDead g) (gDel g)))).
    { apply lo_runAt; auto. apply R_deadline; auto. apply lo_R; auto. }
    destruct g. exact X.
Qed.

Lemma lo_run x es : forall g, GA g -> LO x g -> LO x (run c g es).
Proof. induction es as [|e es IH]; cbn; auto. intros g G L. apply IH; [now apply stepA|now apply lo_step]. Qed.

Lemma run_app es : forall g es', run c g (es ++ es') = run c (run c g es) es'.
Proof. induction es as [|e es IH]; cbn; auto. Qed.

Theorem never_answered x es : LO x (run c ginit es) -> forall es' a, ~ In (HRes x a) (hist c (es ++ es')).
Proof.
  intros L es' a H. unfold hist in H. rewrite run_app in H.
  pose proof (lo_run x es' _ (runA es ginit GA_init) L) as L'. destruct (lo_no _ _ L') as [N1 N2].
  apply hist_in in H. destruct H as (e & H & X).
  destruct e as [? ? ?|? ? ?|i v t|i []]; cbn in X; try discriminate; injection X; intros; subst.
  - eapply N1; eauto.
  - eapply N2; eauto.
  - eapply N2; eauto.
Qed.
End G.
