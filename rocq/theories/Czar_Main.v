(** From the invariants to statements about runs. *)
From Coq Require Import List ZArith Bool Arith Lia.
Import ListNotations.
From Verif Require Import Czar_Model Czar_Spec Czar_Proofs Czar_Step Czar_Events Czar_Members Czar_Views Czar_Ping Czar_Runs Czar_One.
Local Open Scope Z_scope.

Lemma plain_prefix told : forall rest o1 y o2, Forall plain told -> ~ plain y -> told ++ rest = o1 ++ y :: o2 ->
  exists m, o1 = told ++ m /\ rest = m ++ y :: o2.
Proof.
  induction told as [|x r IH]; intros rest o1 y o2 F N E; cbn in *; [eauto|].
  inversion F; subst. destruct o1 as [|z o1]; cbn in E; injection E as -> E; [contradiction|].
  destruct (IH _ _ _ _ H2 N E) as (m & -> & ->). exists m. auto.
Qed.

Section Main.
Variable drift : Z.
Hypothesis drift0 : 0 <= drift.
Notation Inv := (Inv drift).
Notation step := (step drift).
Notation run := (run drift).

Lemma up_event w e o1 o2 p v l : snd (step w e) = o1 ++ OUp p v l :: o2 ->
  Forall plain o1 /\ exists P, wProcs w p = Some P /\ vle (cVers P) v.
Proof.
  intro E. destruct (step_shape drift w e) as (told & up & ans & E0 & F & U & A). rewrite E0 in E.
  match type of E with _ = _ ++ ?y :: _ => assert (NP : ~ plain y) by (intro X; exact X) end.
  destruct (plain_prefix told _ _ _ _ F NP E) as (m & -> & R).
  destruct U as [-> |(p0 & v0 & l0 & P & -> & EP & L)].
  - cbn in R. destruct A as [-> |(q & p1 & v1 & l1 & Q & Q' & -> & _)]; [destruct m; discriminate|].
    destruct m as [|? [|? ?]]; discriminate.
  - destruct m as [|a m].
    + cbn in R. injection R as -> -> -> _. rewrite app_nil_r. eauto.
    + cbn in R. injection R as _ R. destruct A as [-> |(q & p1 & v1 & l1 & Q & Q' & -> & _)]; [destruct m; discriminate|].
      destruct m as [|? [|? ?]]; discriminate.
Qed.

Lemma ans_event w e o1 o2 q p v l : snd (step w e) = o1 ++ OAns q p v l :: o2 ->
  (forall q0 p0 v0 l0, ~ In (OAns q0 p0 v0 l0) o1) /\
  exists P P', wProcs w q = Some P /\ wProcs (fst (step w e)) q = Some P' /\ cState P = Am /\ wNow w <= vUntil (cVers P) /\
    cVers P' = v /\ cList P' = l /\ cName P' = cName P /\ vEpoch v = vEpoch (cVers P) /\ vle (cVers P) v.
Proof.
  intro E. destruct (step_shape drift w e) as (told & up & ans & E0 & F & U & A). rewrite E0 in E.
  match type of E with _ = _ ++ ?y :: _ => assert (NP : ~ plain y) by (intro X; exact X) end.
  destruct (plain_prefix told _ _ _ _ F NP E) as (m & -> & R).
  assert (NT : forall q0 p0 v0 l0, ~ In (OAns q0 p0 v0 l0) told).
  { intros q0 p0 v0 l0 K. rewrite Forall_forall in F. exact (F _ K). }
  assert (X : ans = [OAns q p v l] /\ m = up).
  { destruct U as [-> |(p0 & v0 & l0 & P & -> & EP & L)].
    - cbn in R. destruct A as [-> |(q0 & p1 & v1 & l1 & Q & Q' & -> & _)]; [destruct m; discriminate|].
      destruct m as [|? [|? ?]]; try discriminate. cbn in R. injection R as -> -> -> -> _. auto.
    - destruct m as [|a m]; [discriminate|]. cbn in R. injection R as <- R.
      destruct A as [-> |(q0 & p1 & v1 & l1 & Q & Q' & -> & _)]; [destruct m; discriminate|].
      destruct m as [|? [|? ?]]; try discriminate. cbn in R. injection R as -> -> -> -> _. auto. }
  destruct X as [-> ->]. split.
  - intros q0 p0 v0 l0 K. apply in_app_or in K. destruct K as [K|K]; [exact (NT _ _ _ _ K)|].
    destruct U as [-> |(p1 & v1 & l1 & P & -> & _)]; [destruct K|destruct K as [K|[]]; discriminate].
  - destruct A as [A|(q0 & p1 & v1 & l1 & Q & Q' & A & A1)]; [discriminate|]. injection A as -> -> -> ->. exists Q, Q'. tauto.
Qed.

Lemma in_stamped (t : Z) (o : obs) (l : list obs) (t0 : Z) : In (t, o) (map (pair t0) l) -> In o l.
Proof. intro K. apply in_map_iff in K. destruct K as (x & E & K). injection E as _ ->. assumption. Qed.

Lemma views_rise es p t v l t' v' l' :
  before (snd (run start es)) (t, OUp p v l) (t', OUp p v' l') -> vle v v'.
Proof.
  intros (a & b & c & E). change (a ++ (t, OUp p v l) :: b ++ (t', OUp p v' l') :: c) with (a ++ ((t, OUp p v l) :: b) ++ (t', OUp p v' l') :: c) in E.
  rewrite app_assoc in E. destruct (run_split drift es _ _ _ _ E) as (es1 & e & es2 & o1 & o2 & -> & B & C & D). cbn [fst snd] in *.
  destruct (reach drift drift0 es1) as [used IV].
  destruct (up_event _ _ _ _ _ _ _ B) as (F & P & EP & L).
  assert (K : In (t, OUp p v l) (snd (run start es1) ++ map (pair t') o1)) by (rewrite <- D; apply in_or_app; right; left; reflexivity).
  apply in_app_or in K. destruct K as [K|K].
  - eapply vle_trans; [|exact L]. exact (po_seen _ _ _ _ (iv_proc _ _ _ _ IV _ _ EP) _ _ _ K).
  - assert (t = t'). { apply in_map_iff in K. destruct K as (x & X & _). congruence. } subst.
    apply in_stamped in K. rewrite Forall_forall in F. destruct (F _ K).
Qed.

Lemma one_czar es i j : steady drift start es ->
  acts (fst (run start es)) i -> acts (fst (run start es)) j -> i = j.
Proof.
  intros SD (P & EP & SP & LP) (Q & EQ & SQ & LQ). destruct (reachJ drift drift0 es SD) as (used & IV & J1 & _).
  pose proof (iv_hist _ _ _ _ IV) as HO.
  assert (X : forall k R, wProcs (fst (run start es)) k = Some R -> cState R = Am -> wNow (fst (run start es)) <= vUntil (cVers R) ->
            exists lf, wLeaf (fst (run start es)) = Some lf /\ own (snd (run start es)) (fEpoch lf) k).
  { intros k R ER SR LR. destruct (po_am _ _ _ _ (iv_proc _ _ _ _ IV _ _ ER) SR) as [O|O]; cbn in O; [|lia].
    destruct (J1 _ _ ER O) as [(lf & A & B & C)|C]; [|lia]. exists lf. split; [assumption|]. rewrite B. assumption. }
  destruct (X _ _ EP SP LP) as (lf & A1 & A2). destruct (X _ _ EQ SQ LQ) as (lf' & B1 & B2).
  assert (lf = lf') by congruence. subst. exact (ho_one _ HO _ _ _ A2 B2).
Qed.

Lemma answers_rise es t q p v l t' q' p' v' l' : steady drift start es ->
  before (snd (run start es)) (t, OAns q p v l) (t', OAns q' p' v' l') -> vle v v'.
Proof.
  intros SD (a & b & c & E). change (a ++ (t, OAns q p v l) :: b ++ (t', OAns q' p' v' l') :: c) with (a ++ ((t, OAns q p v l) :: b) ++ (t', OAns q' p' v' l') :: c) in E.
  rewrite app_assoc in E. destruct (run_split drift es _ _ _ _ E) as (es1 & e & es2 & o1 & o2 & -> & B & C & D). cbn [fst snd] in *.
  destruct (steady_app drift _ _ _ SD) as [SD1 _].
  destruct (reachJ drift drift0 es1 SD1) as (used & IV & J1 & _). pose proof (iv_hist _ _ _ _ IV) as HO.
  destruct (ans_event _ _ _ _ _ _ _ _ B) as (F & P & P' & EP & EP' & SP & LP & _ & _ & _ & EE & L).
  assert (K : In (t, OAns q p v l) (snd (run start es1) ++ map (pair t') o1)) by (rewrite <- D; apply in_or_app; right; left; reflexivity).
  apply in_app_or in K. destruct K as [K|K].
  2:{ assert (t = t'). { apply in_map_iff in K. destruct K as (x & X & _). congruence. } subst. apply in_stamped in K. destruct (F _ _ _ _ K). }
  pose proof (iv_proc _ _ _ _ IV _ _ EP) as PO.
  destruct (po_am _ _ _ _ PO SP) as [O|O]; cbn in O; [|lia].
  destruct (ho_ans _ HO _ _ _ _ _ K) as (OX & _). cbn in OX.
  destruct (Nat.eq_dec q q') as [-> |NE].
  - eapply vle_trans; [|exact L]. apply (po_views _ _ _ _ PO v l); [exists t; right; eauto|assumption].
  - destruct (J1 _ _ EP O) as [(lf & A1 & A2 & A3)|A3]; [|lia].
    destruct (ho_own _ HO _ _ OX) as (_ & _ & lf' & B1 & B2). cbn in B1. rewrite A1 in B1. injection B1 as <-.
    assert (vEpoch v <> vEpoch (cVers P)).
    { intro X. rewrite X in OX. apply NE. exact (ho_one _ HO _ _ _ OX O). }
    unfold vle. left. rewrite EE. lia.
Qed.

Lemma views_agree es v l v' l' :
  shown (snd (run start es)) v l -> shown (snd (run start es)) v' l' -> sameVersion v v' -> who l = who l'.
Proof.
  intros A B C. destruct (reach drift drift0 es) as [used IV]. rewrite <- !contentOf_who.
  exact (ho_agree _ (iv_hist _ _ _ _ IV) _ _ _ _ A B C).
Qed.

Lemma kept es t q p v l t' q' p' v' l' m u :
  before (snd (run start es)) (t, OAns q p v l) (t', OAns q' p' v' l') ->
  vEpoch v = vEpoch v' -> leased l m u -> absent l' m -> u + drift < t'.
Proof.
  intros (a & b & c & E) EV (x & IX & NX & UX) AB.
  change (a ++ (t, OAns q p v l) :: b ++ (t', OAns q' p' v' l') :: c) with (a ++ ((t, OAns q p v l) :: b) ++ (t', OAns q' p' v' l') :: c) in E.
  rewrite app_assoc in E. destruct (run_split drift es _ _ _ _ E) as (es1 & e & es2 & o1 & o2 & -> & B & C & D). cbn [fst snd] in *.
  destruct (ans_event _ _ _ _ _ _ _ _ B) as (F & P & P' & EP & EP' & SP & LP & V1 & V2 & _ & _ & _).
  assert (K : In (t, OAns q p v l) (snd (run start es1) ++ map (pair t') o1)) by (rewrite <- D; apply in_or_app; right; left; reflexivity).
  apply in_app_or in K. destruct K as [K|K].
  2:{ assert (t = t'). { apply in_map_iff in K. destruct K as (z & X & _). congruence. } subst. apply in_stamped in K. destruct (F _ _ _ _ K). }
  destruct (reach drift drift0 es1) as [used0 IV0]. destruct (step_Inv drift drift0 _ _ _ e IV0) as [used IV].
  pose proof (iv_hist _ _ _ _ IV) as HO. pose proof (iv_proc _ _ _ _ IV _ _ EP') as PO.
  assert (K1 : In (t, OAns q p v l) (snd (run start es1) ++ stamped (fst (step (fst (run start es1)) e)) (snd (step (fst (run start es1)) e)))).
  { apply in_or_app. auto. }
  destruct (ho_ans _ HO _ _ _ _ _ K1) as (O1 & OL & _ & nm & NU & NG). cbn in O1, NU.
  assert (K2 : In (t', OAns q' p' v' l') (snd (run start es1) ++ stamped (fst (step (fst (run start es1)) e)) (snd (step (fst (run start es1)) e)))).
  { apply in_or_app. right. unfold stamped. apply in_map_iff. exists (OAns q' p' v' l'). rewrite C. split; [reflexivity|].
    rewrite B. apply in_or_app. right. left. reflexivity. }
  destruct (ho_ans _ HO _ _ _ _ _ K2) as (O2 & _). cbn in O2.
  assert (q = q') by (rewrite EV in O1; exact (ho_one _ HO _ _ _ O1 O2)). subst q'.
  assert (EN : nm = cName P') by (exact (ho_fun _ HO _ _ _ NU (po_used _ _ _ _ PO))). subst nm.
  assert (G : getP m (lPeers l) = Some x) by (rewrite <- NX; apply getP_uniq; [apply OL|assumption]).
  assert (NM : m <> cName P') by (intros ->; congruence).
  destruct (po_keep _ _ _ _ PO _ _ _ _ _ _ K1 (eq_trans EV (f_equal vEpoch (eq_sym V1))) G NM) as [(x' & G' & _)|L].
  - exfalso. destruct (getP_In _ _ _ G') as [I1 I2]. rewrite V2 in I1. exact (AB _ I1 I2).
  - cbn in L. rewrite C. lia.
Qed.
End Main.
