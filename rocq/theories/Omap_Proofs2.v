(** Ranges whose body changes the map. *)
From Coq Require Import List NArith Arith Lia Bool Sorted.
From Verif Require Import Base Omap_Model Omap_Spec Omap_Proofs.
Import ListNotations.

Section P.
Context {K V : Type} (cmp : K -> K -> comparison) (OK : ord_ok cmp).
Notation omap := (@omap K V).
Notation winv := (winv cmp).
Notation nsorted := (nsorted cmp).

Notation decT := (nat -> K -> V -> list (oop K V) * bool).

Definition others (k : K) (t : list (node K)) : list (node K) := filter (fun n => negb (same cmp (fst n) k)) t.

Lemma others_app : forall k a b, others k (a ++ b) = others k a ++ others k b.
Proof. intros. apply filter_app. Qed.

Lemma others_lt : forall k a, Forall (fun n : node K => cmp (fst n) k = Lt) a -> others k a = a.
Proof.
  intros k a F. unfold others. induction F as [|n a E F IH]; cbn [filter]; auto.
  destruct (same_spec cmp OK (fst n) k) as [X|_]; [|cbn [negb]; f_equal; exact IH].
  rewrite X, (cmp_refl cmp OK) in E. discriminate.
Qed.
Lemma others_gt : forall k a, Forall (fun n : node K => cmp k (fst n) = Lt) a -> others k a = a.
Proof.
  intros k a F. unfold others. induction F as [|n a E F IH]; cbn [filter]; auto.
  destruct (same_spec cmp OK (fst n) k) as [X|_]; [|cbn [negb]; f_equal; exact IH].
  rewrite X, (cmp_refl cmp OK) in E. discriminate.
Qed.

Lemma split_unique : forall k (a b c d : list (node K)), a ++ b = c ++ d ->
  Forall (fun n => cmp (fst n) k = Lt) a -> Forall (fun n => cmp (fst n) k = Lt) c ->
  Forall (fun n => cmp k (fst n) = Lt) b -> Forall (fun n => cmp k (fst n) = Lt) d -> a = c /\ b = d.
Proof.
  induction a as [|x a IH]; intros b c d E A C B D.
  - destruct c as [|y c]; auto. exfalso. simpl in E. subst b. inversion B; subst. inversion C; subst.
    apply (cmp_gt_lt cmp OK) in H1. congruence.
  - destruct c as [|y c].
    + exfalso. simpl in E. subst d. inversion A; subst. inversion D; subst.
      apply (cmp_gt_lt cmp OK) in H3. congruence.
    + simpl in E. injection E as -> E. inversion A; inversion C; subst.
      destruct (IH b c d E) as [-> ->]; auto.
Qed.

Lemma nsorted_mid : forall (a : list (node K)) k p b, nsorted (a ++ (k, p) :: b) ->
  Forall (fun n => cmp (fst n) k = Lt) a /\ Forall (fun n => cmp k (fst n) = Lt) b.
Proof.
  intros a k p b S. apply nsorted_app in S. destruct S as (_ & B & D). apply nsorted_cons in B. destruct B as [B _].
  split; auto. apply Forall_forall. intros x I. apply (D x (k, p) I). simpl. auto.
Qed.

Lemma others_mid : forall (a : list (node K)) k p b, nsorted (a ++ (k, p) :: b) -> others k (a ++ (k, p) :: b) = a ++ b.
Proof.
  intros a k p b S. destruct (nsorted_mid a k p b S) as [A B]. rewrite others_app.
  rewrite (others_lt k a A). f_equal. unfold others. cbn [filter fst].
  destruct (same_spec cmp OK k k); [|congruence]. cbn [negb]. apply others_gt. auto.
Qed.

Lemma tame_tree : forall pre k p post t', nsorted (pre ++ (k, p) :: post) -> nsorted t' ->
  others k t' = others k (pre ++ (k, p) :: post) ->
  exists mid, t' = pre ++ mid ++ post /\ List.length mid <= 1 /\ (mid = [] -> forall q, ~ In (k, q) t').
Proof.
  intros pre k p post t' S S' E. rewrite (others_mid _ _ _ _ S) in E. destruct (nsorted_mid _ _ _ _ S) as [A B].
  destruct (findGE cmp t' k) as [it f] eqn:F. destruct f.
  - destruct it as [[k' q]|].
    2:{ exfalso. destruct (findGE_split cmp OK t' k S') as (a & b & _ & _ & _ & X). rewrite X in F.
        destruct b as [|[? ?] ?]; simpl in F; congruence. }
    apply (findGE_found cmp OK) in F; auto. destruct F as (-> & a & b & ->).
    rewrite (others_mid _ _ _ _ S') in E. destruct (nsorted_mid _ _ _ _ S') as [A' B'].
    destruct (split_unique k a b pre post E A' A B' B) as [-> ->]. exists [(k, q)]. repeat split; auto. discriminate.
  - apply (findGE_absent cmp OK) in F; auto. destruct F as [N _]. exists []. simpl. repeat split; auto.
    rewrite <- E. unfold others. symmetry. clear E S'. induction t' as [|[k2 q] t' IH]; auto. cbn [filter fst].
    destruct (same_spec cmp OK k2 k) as [->|_]; [exfalso; apply (N q); simpl; auto|]. cbn [negb]. f_equal. apply IH.
    intros r I. apply (N r). simpl. auto.
Qed.

(** Licensed bodies. *)
Record tame (k : K) (s s' : omap) : Prop := {
  tm_inv : winv s';
  tm_others : others k (o_tree s') = others k (o_tree s);
  tm_ver : (o_ver s <= o_ver s')%N;
  tm_same : o_ver s' = o_ver s -> o_tree s' = o_tree s /\
    (o_cver s' = o_cver s /\ o_cache s' = o_cache s \/ o_cver s' = o_ver s /\ o_cache s' = o_tree s) }.

Lemma tame_refl : forall k s, winv s -> tame k s s.
Proof. intros k s W. constructor; auto; try lia. Qed.

Lemma tame_trans : forall k a b c, tame k a b -> tame k b c -> tame k a c.
Proof.
  intros k a b c [W1 O1 V1 S1] [W2 O2 V2 S2]. constructor; auto; try congruence; try lia.
  intros E. assert (E1 : o_ver b = o_ver a) by lia. assert (E2 : o_ver c = o_ver b) by lia.
  destruct (S1 E1) as [T1 C1], (S2 E2) as [T2 C2]. rewrite T2, T1. split; auto.
  rewrite T1 in C2. destruct C2 as [[A B]|[A B]].
  - rewrite A, B. auto.
  - right. rewrite E1 in A. auto.
Qed.

Lemma licensed_step : forall k s o, winv s -> licensed k o -> exists s', ostep cmp s o = Ok s' /\ tame k s s'.
Proof.
  intros k s o W L.
  assert (DK : exists f it s', delkey cmp s k = Ok (f, it, s') /\ tame k s s').
  { destruct (look cmp s k) as [v|] eqn:LK.
    - destruct (delkey_present cmp OK s k v W LK) as (pre & p & post & s' & T & D & E & W' & _).
      do 3 eexists. split; [exact D|]. subst s'. constructor; simpl; auto; try lia.
      rewrite T, others_mid, others_app by (rewrite <- T; apply W).
      pose proof (wi_sorted cmp s W) as S. rewrite T in S. destruct (nsorted_mid _ _ _ _ S) as [A B].
      rewrite (others_lt k pre A), (others_gt k post B). auto.
    - rewrite (delkey_absent cmp OK s k W LK). do 3 eexists. split; [reflexivity|]. apply tame_refl; auto. }
  destruct o as [k' v|k'|k' p| |k' v| |n]; simpl in L; try contradiction; cbn [ostep]; try subst k'.
  - destruct (oset_spec cmp OK s k v W) as (W' & _ & _ & E & F). eexists. split; [reflexivity|].
    constructor; auto; lia.
  - destruct DK as (f & it & s' & D & T). rewrite D. cbn. eauto.
  - destruct DK as (f & it & s' & D & T). cbn [deleteWithIter]. rewrite D. cbn. eauto.
  - destruct (poke_spec cmp OK s k' v W) as (W' & A & B & _). eexists. split; [reflexivity|].
    constructor; auto; try congruence; try lia. intros _. split; auto. left.
    unfold poke. destruct (findGE cmp (o_tree s) k') as [[[? ?]|] []]; auto.
  - destruct (cached_spec cmp s W) as (F & W' & A & B & C). eexists. split; [reflexivity|].
    constructor; auto; try congruence; try lia. intros _. split; auto. unfold cached in *.
    destruct (cacheHit s); simpl in *; auto.
Qed.

Lemma licensed_run : forall k ops s, winv s -> Forall (licensed k) ops ->
  exists s', run_res (ostep cmp) s ops = Ok s' /\ tame k s s'.
Proof.
  induction ops as [|o ops IH]; intros s W F.
  - exists s. split; auto. apply tame_refl; auto.
  - inversion F; subst. destruct (licensed_step k s o W H1) as (s1 & E & T). simpl. rewrite E.
    destruct (IH s1) as (s' & R & T'); auto; [apply T|]. exists s'. split; auto. eapply tame_trans; eauto.
Qed.

Definition allLicensed (dec : nat -> K -> V -> list (oop K V) * bool) : Prop :=
  forall i k v, Forall (licensed k) (fst (dec i k v)).

Lemma bodiesRun_sameTH : forall (dec : decT) l i (a b s' : omap), o_tree a = o_tree b -> o_heap a = o_heap b ->
  bodiesRun cmp dec i l a s' -> bodiesRun cmp dec i l b s'.
Proof.
  intros dec [|[k v] l] i a b s' A B H; simpl in *.
  - rewrite <- A, <- B. auto.
  - destruct H as (s1 & s2 & C & D & E). exists s1, s2. rewrite <- A, <- B. auto.
Qed.

Lemma value_at : forall (s : omap) pre k p post, winv s -> o_tree s = pre ++ (k, p) :: post ->
  exists v, nth_error (o_heap s) p = Some v /\ get2 cmp s k = Ok (Some v).
Proof.
  intros s pre k p post W T. rewrite (get2_look cmp OK) by auto.
  assert (I : In (k, p) (o_tree s)) by (rewrite T; apply in_or_app; simpl; auto).
  rewrite (look_in cmp OK s k p W I). pose proof (wi_heap cmp s W) as H. rewrite Forall_forall in H. apply H in I. simpl in I.
  destruct (nth_error (o_heap s) p) eqn:E; [eauto|]. apply nth_error_None in E. lia.
Qed.

(** What one range of a never-breaking licensed body did. *)
Definition goesOn (dec : nat -> K -> V -> list (oop K V) * bool) : Prop := forall i k v, snd (dec i k v) = true.

Lemma slow_script : forall (dec : decT), allLicensed dec -> forall rest pre fuel i s,
  winv s -> o_tree s = pre ++ rest -> List.length rest <= fuel ->
  exists i' s' l j, slowLoop (script cmp dec) fuel (hd_error rest) i s = Ok (Some (i', s', l)) /\
    winv s' /\ bodiesRun cmp dec i l s s' /\ map fst l = firstn j (map fst rest) /\
    (goesOn dec -> map fst l = map fst rest).
Proof.
  intros dec AL. induction rest as [|[k p] rest IH]; intros pre fuel i s W T FU.
  - exists i, s, [], 0. destruct fuel; simpl; auto 10.
  - destruct fuel as [|fuel]; [simpl in FU; lia|]. cbn [slowLoop hd_error].
    assert (TN : tNext (o_tree s) p = Ok (hd_error rest)).
    { rewrite T. apply tNext_split. pose proof (wi_nodup cmp s W) as N. rewrite T in N. exact N. }
    destruct (value_at s pre k p rest W T) as (v & E & G).
    rewrite TN. cbn [bind]. unfold deref. rewrite E. cbn [bind]. unfold script at 1.
    destruct (licensed_run k (fst (dec i k v)) s W (AL i k v)) as (s1 & R & TM). rewrite R. cbn [bind].
    destruct (snd (dec i k v)) eqn:C.
    + destruct TM as [W1 O1 V1 S1].
      rewrite T in O1. destruct (tame_tree pre k p rest (o_tree s1)) as (mid & T1 & LM & _); auto.
      { rewrite <- T. apply W. } { apply W1. }
      destruct (IH (pre ++ mid) fuel (S i) s1 W1) as (i' & s' & l & j & L & W' & B & F & GO).
      { rewrite <- app_assoc. auto. } { simpl in FU. lia. }
      rewrite L. cbn [addOut bind]. exists i', s', ((k, v) :: l), (S j). split; auto. split; auto. split.
      * simpl. exists s, s1. auto 10.
      * split; [simpl; f_equal; auto|]. intros X. simpl. f_equal. auto.
    + cbn [addOut bind]. exists (S i), s1, [(k, v)], 1. split; auto. split; [apply TM|]. split.
      * simpl. exists s, s1. auto 10.
      * split; [simpl; destruct rest; auto|]. intros X. rewrite X in C. discriminate.
Qed.

Lemma cold_script : forall (dec : decT), allLicensed dec -> forall rest pre fuel i s vers good,
  nsorted (o_tree s) -> NoDup (map snd (o_tree s)) -> Forall (fun n => snd n < List.length (o_heap s)) (o_tree s) ->
  o_tree s = pre ++ rest -> List.length rest <= fuel -> (vers <= o_ver s)%N ->
  (good = true -> o_ver s = vers /\ o_cver s = vers /\
     (o_cache s = pre \/ o_cache s = o_tree s \/ List.length (o_tree s) < List.length (o_cache s))) ->
  (good = false -> (vers < o_ver s)%N /\ o_cver s = 0%N) ->
  exists i' s' l j, coldLoop (script cmp dec) fuel vers good (hd_error rest) i s = Ok (Some (i', s', l)) /\
    winv s' /\ bodiesRun cmp dec i l s s' /\ map fst l = firstn j (map fst rest) /\
    (goesOn dec -> map fst l = map fst rest).
Proof.
  intros dec AL. induction rest as [|[k p] rest IH]; intros pre fuel i s vers good SO ND HE T FU VL G1 G2.
  - exists i, s, [], 0.
    assert (W : winv s).
    { constructor; auto. intros CV. destruct good.
      - destruct (G1 eq_refl) as (A & B & [C|[C|C]]); auto.
        + left. exists []. rewrite T, C. auto.
        + left. exists []. rewrite C, app_nil_r. auto.
      - destruct (G2 eq_refl). lia. }
    destruct fuel; simpl; auto 10.
  - destruct fuel as [|fuel]; [simpl in FU; lia|]. cbn [coldLoop hd_error].
    assert (TN : tNext (o_tree s) p = Ok (hd_error rest)).
    { rewrite T. apply tNext_split. rewrite T in ND. exact ND. }
    rewrite TN. cbn [bind].
    set (s1 := if good then mkOmap (o_tree s) (o_heap s) (o_ver s) (o_cache s ++ [(k, p)]) (o_cver s) else s).
    assert (T1 : o_tree s1 = o_tree s) by (unfold s1; destruct good; auto).
    assert (H1 : o_heap s1 = o_heap s) by (unfold s1; destruct good; auto).
    assert (V1 : o_ver s1 = o_ver s) by (unfold s1; destruct good; auto).
    assert (W1 : winv s1).
    { constructor; rewrite ?T1, ?H1; auto. rewrite V1. intros CV. unfold s1 in *. destruct good.
      - simpl in *. destruct (G1 eq_refl) as (A & B & [C|[C|C]]).
        + left. exists rest. rewrite C, <- app_assoc. exact T.
        + right. rewrite app_length, C. simpl. lia.
        + right. rewrite app_length. simpl. lia.
      - destruct (G2 eq_refl). lia. }
    assert (T1' : o_tree s1 = pre ++ (k, p) :: rest) by congruence.
    destruct (value_at s1 pre k p rest W1 T1') as (v & E & G).
    unfold deref. rewrite E. cbn [bind]. unfold script at 1.
    destruct (licensed_run k (fst (dec i k v)) s1 W1 (AL i k v)) as (s2 & R & TM). rewrite R. cbn [bind].
    destruct (snd (dec i k v)) eqn:C; cbn [negb].
    + destruct TM as [W2 O2 V2 S2].
      rewrite T1' in O2. destruct (tame_tree pre k p rest (o_tree s2)) as (mid & T2 & LM & _); auto.
      { rewrite <- T1'. apply W1. } { apply W2. }
      destruct (N.eqb_spec (o_ver s2) vers) as [EV|NV]; cbn [negb].
      * destruct good; [|destruct (G2 eq_refl); lia].
        destruct (G1 eq_refl) as (A & B & CC).
        destruct (S2 ltac:(lia)) as [T3 C3].
        destruct (IH (pre ++ [(k, p)]) fuel (S i) s2 vers true) as (i' & s' & l & j & L & W' & BR & F & GO).
        -- apply W2.
        -- apply W2.
        -- apply W2.
        -- rewrite T3, T1', <- app_assoc. auto.
        -- simpl in FU. lia.
        -- lia.
        -- intros _. split; auto. rewrite T3, T1. unfold s1 in C3. simpl in C3. split.
           ++ destruct C3 as [[X _]|[X _]]; congruence.
           ++ destruct C3 as [[_ X]|[_ X]]; rewrite X; auto.
              destruct CC as [CC|[CC|CC]].
              ** left. rewrite CC. auto.
              ** right. right. rewrite app_length, CC. simpl. lia.
              ** right. right. rewrite app_length. simpl. lia.
        -- discriminate.
        -- rewrite L. cbn [addOut bind]. exists i', s', ((k, v) :: l), (S j). split; auto. split; auto. split.
           { simpl. exists s1, s2. auto 10. } split; [simpl; f_equal; auto|]. intros X. simpl. f_equal. auto.
      * destruct (IH (pre ++ mid) fuel (S i) (mkOmap (o_tree s2) (o_heap s2) (o_ver s2) [] 0) vers false)
          as (i' & s' & l & j & L & W' & BR & F & GO); simpl; try apply W2.
        -- rewrite <- app_assoc. auto.
        -- simpl in FU. lia.
        -- lia.
        -- discriminate.
        -- intros _. split; auto. lia.
        -- rewrite L. cbn [addOut bind]. exists i', s', ((k, v) :: l), (S j). split; auto. split; auto. split.
           { simpl. exists s1, s2. split; auto. split; auto. split; auto. split; auto.
             eapply bodiesRun_sameTH; [| |exact BR]; auto. }
           split; [simpl; f_equal; auto|]. intros X. simpl. f_equal. auto.
    + cbn [addOut bind]. exists (S i), s2, [(k, v)], 1. split; auto. split; [apply TM|]. split.
      * simpl. exists s1, s2. auto 10.
      * split; [simpl; destruct rest; auto|]. intros X. rewrite X in C. discriminate.
Qed.

Lemma hot_script : forall (dec : decT), allLicensed dec -> forall rest pre fuel i s,
  winv s -> o_tree s = pre ++ rest -> List.length rest <= fuel ->
  exists i' s' l j, hotLoop (script cmp dec) fuel (o_ver s) rest (List.length pre) (hd_error rest) i s = Ok (Some (i', s', l)) /\
    winv s' /\ bodiesRun cmp dec i l s s' /\ map fst l = firstn j (map fst rest) /\
    (goesOn dec -> map fst l = map fst rest \/
       exists k v l0 k2, l = l0 ++ [(k, v)] /\ map fst l ++ [k2] = map fst rest /\ look cmp s' k = None).
Proof.
  intros dec AL. induction rest as [|[k p] rest IH]; intros pre fuel i s W T FU.
  - exists i, s, [], 0. simpl. auto 10.
  - cbn [hotLoop hd_error itNext].
    assert (TN : tNext (o_tree s) p = Ok (hd_error rest)).
    { rewrite T. apply tNext_split. pose proof (wi_nodup cmp s W) as N. rewrite T in N. exact N. }
    destruct (value_at s pre k p rest W T) as (v & E & G).
    rewrite TN. cbn [bind]. unfold deref. rewrite E. cbn [bind]. unfold script at 1.
    destruct (licensed_run k (fst (dec i k v)) s W (AL i k v)) as (s1 & R & TM). rewrite R. cbn [bind].
    destruct (snd (dec i k v)) eqn:C; cbn [negb].
    + destruct TM as [W1 O1 V1 S1].
      rewrite T in O1. destruct (tame_tree pre k p rest (o_tree s1)) as (mid & T1 & LM & NM); auto.
      { rewrite <- T. apply W. } { apply W1. }
      destruct (N.eqb_spec (o_ver s1) (o_ver s)) as [EV|NV].
      * destruct (S1 EV) as [T3 _].
        destruct (IH (pre ++ [(k, p)]) fuel (S i) s1 W1) as (i' & s' & l & j & L & W' & BR & F & GO).
        { rewrite T3, T, <- app_assoc. auto. } { simpl in FU. lia. }
        rewrite EV in L. rewrite app_length in L. simpl in L. rewrite Nat.add_1_r in L. rewrite L.
        cbn [addOut bind]. exists i', s', ((k, v) :: l), (S j). split; auto. split; auto. split.
        { simpl. exists s, s1. auto 10. } split; [simpl; f_equal; auto|]. intros X.
        destruct (GO X) as [Y|(k1 & v1 & l0 & k2 & Y1 & Y2 & Y3)]; [left; simpl; f_equal; auto|].
        right. exists k1, v1, ((k, v) :: l0), k2. simpl. rewrite Y1 in *. repeat split; auto. f_equal. auto.
      * unfold Len. rewrite T1, !app_length.
        destruct (Nat.leb_spec (List.length pre + (List.length mid + List.length rest)) (S (List.length pre))) as [LE|GT].
        -- cbn [addOut bind]. exists (S i), s1, [(k, v)], 1. split; auto. split; auto. split.
           { simpl. exists s, s1. auto 10. } split; [simpl; destruct rest; auto|].
           intros X. destruct rest as [|[k2 p2] rest]; [left; auto|]. right.
           simpl in LE. destruct rest; [|simpl in LE; lia]. destruct mid; [|simpl in LE; lia].
           exists k, v, [], k2. simpl. repeat split; auto. apply look_notin; auto.
        -- destruct (slow_script dec AL rest (pre ++ mid) fuel (S i) s1 W1) as (i' & s' & l & j & L & W' & BR & F & GO).
           { rewrite <- app_assoc. auto. } { simpl in FU. lia. }
           rewrite L. cbn [addOut bind]. exists i', s', ((k, v) :: l), (S j). split; auto. split; auto. split.
           { simpl. exists s, s1. auto 10. } split; [simpl; f_equal; auto|]. intros X. left. simpl. f_equal. auto.
    + cbn [addOut bind]. exists (S i), s1, [(k, v)], 1. split; auto. split; [apply TM|]. split.
      * simpl. exists s, s1. auto 10.
      * split; [simpl; destruct rest; auto|]. intros X. rewrite X in C. discriminate.
Qed.

Lemma all_script_cold : forall (dec : decT) fuel s, allLicensed dec -> winv s -> cacheHit s = false -> Len s <= fuel ->
  exists i' s' l j, all (script cmp dec) fuel 0 s = Ok (Some (i', s', l)) /\
    winv s' /\ bodiesRun cmp dec 0 l s s' /\ map fst l = firstn j (map fst (o_tree s)) /\
    (goesOn dec -> map fst l = map fst (o_tree s)).
Proof.
  intros dec fuel s AL W CH FU. unfold all. rewrite CH. unfold tMin.
  destruct (cold_script dec AL (o_tree s) [] fuel 0 (mkOmap (o_tree s) (o_heap s) (o_ver s) [] (o_ver s)) (o_ver s) true)
    as (i' & s' & l & j & L & W' & BR & F & GO); simpl; try apply W; auto; try lia; try discriminate.
  exists i', s', l, j. split; auto. split; auto. split; auto. eapply bodiesRun_sameTH; [| |exact BR]; auto.
Qed.

Lemma all_script_hot : forall (dec : decT) fuel s, allLicensed dec -> winv s -> cacheHit s = true -> Len s <= fuel ->
  exists i' s' l j, all (script cmp dec) fuel 0 s = Ok (Some (i', s', l)) /\
    winv s' /\ bodiesRun cmp dec 0 l s s' /\ map fst l = firstn j (map fst (o_tree s)) /\
    (goesOn dec -> map fst l = map fst (o_tree s) \/
       exists k v l0 k2, l = l0 ++ [(k, v)] /\ map fst l ++ [k2] = map fst (o_tree s) /\ look cmp s' k = None).
Proof.
  intros dec fuel s AL W CH FU. unfold all. rewrite CH. unfold tMin. rewrite (cacheHit_tree cmp s W CH).
  apply (hot_script dec AL (o_tree s) [] fuel 0 s W eq_refl FU).
Qed.

Lemma pairs_keys0 : forall h (t : list (node K)) (l : list (K * V)), pairs h t l -> map fst l = map fst t.
Proof. induction 1 as [|n kv t l [A _] _ IH]; simpl; congruence. Qed.

(** The map without its cache. *)
Definition strip (s : omap) : omap := mkOmap (o_tree s) (o_heap s) (o_ver s) [] (o_ver s).

Lemma strip_winv : forall x y, winv x -> o_tree y = o_tree x -> o_heap y = o_heap x -> winv (strip y).
Proof.
  intros x y [A B C D] T H. constructor; simpl; rewrite ?T, ?H; auto. intros _. left. exists (o_tree x). auto.
Qed.

Lemma delkey_strip : forall (s : omap) i f n s', delkey cmp (strip s) i = Ok (f, n, s') ->
  delkey cmp s i = Ok (f, n, if f then s' else s).
Proof.
  intros s i f n s' H. unfold delkey in *. cbn [strip o_tree o_heap o_ver] in H.
  destruct (findGE cmp (o_tree s) i) as [[[j q]|] []]; try (injection H as <- <- <-; reflexivity).
  destruct (tNext (o_tree s) q); [|discriminate]. cbn [bind] in *. injection H as <- <- <-. auto.
Qed.

(** Calls on one key: the cache plays no role, other keys are untouched, and
    the version tells whether the tree changed. *)
Definition own (k : K) (o : oop K V) : Prop := (exists v, o = OSet k v) \/ o = ODel k.

Lemma own_step : forall k s o, own k o -> winv (strip s) -> exists s', ostep cmp s o = Ok s' /\ winv (strip s') /\
  (forall k', k' <> k -> look cmp s' k' = look cmp s k') /\ (o_ver s <= o_ver s')%N /\
  (o_ver s' = o_ver s -> o_tree s' = o_tree s).
Proof.
  intros k s o [(v & ->)| ->] W; cbn [ostep].
  - destruct (oset_spec cmp OK (strip s) k v W) as (W' & _ & L & E & _).
    assert (S : snd (oset cmp s k v) = snd (oset cmp (strip s) k v)).
    { unfold oset. cbn [strip o_tree o_heap o_ver]. destruct (findGE cmp (o_tree s) k) as [[[? ?]|] []]; auto. }
    eexists. split; [reflexivity|]. rewrite S. split; [eapply strip_winv; eauto|]. split.
    + intros k' N. rewrite L. destruct (same_spec cmp OK k k'); [congruence|]. auto.
    + change (o_ver (strip s)) with (o_ver s) in E. split; [|intros X]; lia.
  - destruct (look cmp (strip s) k) as [v|] eqn:LK.
    + destruct (delkey_present cmp OK (strip s) k v W LK) as (a & p & b & s' & _ & D & E & W' & L).
      apply delkey_strip in D. rewrite D. cbn [bind]. eexists. split; [reflexivity|]. split; [eapply strip_winv; eauto|].
      split; [intros k' N; rewrite L; destruct (same_spec cmp OK k k'); [congruence|]; auto|].
      subst s'. cbn [strip o_ver o_tree]. split; [|intros]; lia.
    + pose proof (delkey_absent cmp OK (strip s) k W LK) as D. apply delkey_strip in D. rewrite D. cbn [bind].
      eexists. split; [reflexivity|]. split; [auto|]. split; [auto|]. split; [lia|auto].
Qed.

Lemma own_run : forall k ops s, Forall (own k) ops -> winv (strip s) -> exists s', run_res (ostep cmp) s ops = Ok s' /\ winv (strip s') /\
  (forall k', k' <> k -> look cmp s' k' = look cmp s k') /\ (o_ver s <= o_ver s')%N /\
  (o_ver s' = o_ver s -> o_tree s' = o_tree s).
Proof.
  induction ops as [|o ops IH]; intros s F W.
  - exists s. split; [auto|]. split; [auto|]. split; [auto|]. split; [lia|auto].
  - inversion F; subst. destruct (own_step k s o H1 W) as (s1 & A & B & C & D & E). cbn [run_res]. rewrite A. cbn [bind].
    destruct (IH s1 H2 B) as (s2 & A2 & B2 & C2 & D2 & E2). exists s2. split; auto. split; auto. split.
    + intros k' N. rewrite C2, C; auto.
    + split; [lia|]. intros X. rewrite E2, E; auto; lia.
Qed.

Lemma own_values : forall (dec : decT) s', (forall i k v, Forall (own k) (fst (dec i k v))) -> forall l i s,
  winv (strip s) -> bodiesRun cmp dec i l s s' -> increasing cmp (map fst l) ->
  forall k v, In (k, v) l -> look cmp s k = Some v.
Proof.
  intros dec s' OW. induction l as [|[k v] l IH]; intros i s W B INC k' v' I; [contradiction|].
  simpl in B. destruct B as (s1 & s2 & T1 & H1 & G & RR & B).
  inversion INC as [|? ? INC1 INC2]; subst. rewrite Forall_map, Forall_forall in INC2.
  assert (W1 : winv (strip s1)) by (eapply strip_winv; eauto).
  assert (L1 : look cmp s1 k = Some v).
  { change (get2 cmp s1 k) with (get2 cmp (strip s1) k) in G. rewrite (get2_look cmp OK) in G by auto. injection G as G. exact G. }
  destruct I as [I|I].
  - injection I as <- <-. rewrite <- L1. symmetry. apply look_ext; auto.
  - destruct (own_run k _ s1 (OW i k v) W1) as (s3 & A & W2 & L2 & _). rewrite RR in A. injection A as <-.
    pose proof (IH (S i) s2 W2 B INC1 k' v' I) as X. rewrite L2 in X.
    + rewrite <- X. symmetry. apply look_ext; auto.
    + intros ->. pose proof (INC2 _ I) as LT. simpl in LT. rewrite (cmp_refl cmp OK) in LT. discriminate.
Qed.

(** the pairs seen are the pairs of the map, in order *)
Lemma own_seen : forall (dec : decT) s s' i seen l j, (forall i k v, Forall (own k) (fst (dec i k v))) ->
  winv s -> bodiesRun cmp dec i seen s s' -> map fst seen = firstn j (map fst (o_tree s)) ->
  pairs (o_heap s) (o_tree s) l -> seen = firstn j l.
Proof.
  intros dec s s' i seen l j OW W B F PR.
  pose proof (pairs_keys0 _ _ _ PR) as KE. rewrite <- KE, firstn_map in F.
  assert (EN := pairs_enum cmp OK s l W PR). destruct EN as [INC EN].
  assert (INC' : increasing cmp (map fst seen)).
  { rewrite F, <- firstn_map. clear - INC. unfold increasing in *. revert j. induction INC as [|x t S IH FO]; intros [|j]; simpl; try constructor; auto.
    rewrite Forall_forall in *. intros y I. apply FO. rewrite <- (firstn_skipn j t). apply in_or_app. auto. }
  pose proof (own_values dec s' OW seen i s (strip_winv _ _ W eq_refl eq_refl) B INC') as VAL.
  assert (VAL2 : forall k v, In (k, v) (firstn j l) -> look cmp s k = Some v).
  { intros k v I. apply EN. rewrite <- (firstn_skipn j l). apply in_or_app. auto. }
  remember (firstn j l) as l2. clear - F VAL VAL2. revert l2 F VAL2.
  induction seen as [|[k v] seen IH]; intros [|[k2 v2] l2] F VAL2; try discriminate; auto.
  simpl in F. injection F as -> F. f_equal.
  - f_equal. assert (X := VAL k2 v (or_introl eq_refl)). assert (Y := VAL2 k2 v2 (or_introl eq_refl)). congruence.
  - apply IH; auto; intros; [apply VAL|apply VAL2]; simpl; auto.
Qed.

(** Deleting some of the keys handed to the body. *)
Lemma filter_chain : forall (drop : K -> V -> bool) s' seen i s m,
  winv (strip s) -> (forall k, look cmp s k = m k) ->
  bodiesRun cmp (fun _ k v => (if drop k v then [ODel k] else [], true)) i seen s s' ->
  increasing cmp (map fst seen) ->
  winv (strip s') /\ (forall k v, In (k, v) seen -> m k = Some v) /\
  forall k, look cmp s' k = match m k with
    | Some v => if existsb (fun kv => same cmp (fst kv) k) seen && drop k v then None else Some v
    | None => None end.
Proof.
  intros drop s'. induction seen as [|[k v] seen IH]; intros i s m W L B INC.
  - simpl in B. destruct B as [B1 B2]. split; [eapply strip_winv; eauto|]. split; [contradiction|].
    intros k. rewrite (look_ext cmp s s' B1 B2), L. simpl. destruct (m k); auto.
  - simpl in B. destruct B as (s1 & s2 & T1 & H1 & G & RR & B).
    inversion INC as [|? ? INC1 INC2]; subst. rewrite Forall_map, Forall_forall in INC2.
    assert (W1 : winv (strip s1)) by (eapply strip_winv; eauto).
    assert (L1 : look cmp s1 k = Some v).
    { change (get2 cmp s1 k) with (get2 cmp (strip s1) k) in G. rewrite (get2_look cmp OK) in G by auto. injection G as G. exact G. }
    assert (G' : m k = Some v) by (rewrite <- L, <- L1; symmetry; apply look_ext; auto).
    assert (S2 : winv (strip s2) /\ forall k', look cmp s2 k' = if same cmp k k' && drop k v then None else m k').
    { destruct (drop k v) eqn:DV.
      - simpl in RR. destruct (delkey_present cmp OK (strip s1) k v W1 L1) as (pre & p & post & s4 & TT & DD & E4 & W4 & L4).
        assert (DK : delkey cmp s1 k = delkey cmp (strip s1) k).
        { unfold delkey in *. simpl in *. destruct (findGE cmp (o_tree s1) k) as [[[k2 q]|] []]; auto; discriminate. }
        rewrite DK, DD in RR. cbn [bind] in RR. injection RR as <-. split; [eapply strip_winv; eauto|].
        intros k'. rewrite andb_true_r, L4. destruct (same cmp k k'); auto.
        rewrite <- L. apply look_ext; auto.
      - simpl in RR. injection RR as <-. split; auto. intros k'. rewrite andb_false_r, <- L. apply look_ext; auto. }
    destruct S2 as [W2 L2].
    destruct (IH (S i) s2 (fun k' => if same cmp k k' && drop k v then None else m k') W2 L2 B INC1) as (W' & I' & L').
    split; auto. split.
    + intros k' v' [I|I]; [injection I as <- <-; auto|]. pose proof (INC2 _ I) as LT. simpl in LT.
      apply I' in I. destruct (same_spec cmp OK k k') as [->|NE]; auto. rewrite (cmp_refl cmp OK) in LT. discriminate.
    + intros k'. rewrite L'. cbn [existsb fst]. destruct (same_spec cmp OK k k') as [<-|NE].
      * cbn [orb andb]. rewrite G'. destruct (drop k v) eqn:DV; auto. rewrite DV, andb_false_r. auto.
      * cbn [orb andb]. auto.
Qed.

Lemma enum_unique : forall a b : list (K * V), increasing cmp (map fst a) -> increasing cmp (map fst b) ->
  (forall x, In x a <-> In x b) -> a = b.
Proof.
  induction a as [|x a IH]; intros b SA SB X.
  - destruct b as [|y b]; auto. destruct (proj2 (X y)); simpl; auto.
  - destruct b as [|y b]; [destruct (proj1 (X x)); simpl; auto|].
    inversion SA as [|? ? SA1 SA2]; subst. inversion SB as [|? ? SB1 SB2]; subst.
    rewrite Forall_map, Forall_forall in SA2, SB2.
    assert (x = y).
    { destruct (proj1 (X x)) as [|I]; [simpl; auto|auto|]. destruct (proj2 (X y)) as [|J]; [simpl; auto|auto|].
      exfalso. specialize (SB2 _ I). specialize (SA2 _ J). pose proof (cmp_trans cmp OK _ _ _ SA2 SB2) as Y.
      rewrite (cmp_refl cmp OK) in Y. discriminate. }
    subst y. f_equal. apply IH; auto. intros z. split; intros I.
    + destruct (proj1 (X z)) as [<-|J]; [simpl; auto| |auto]. specialize (SA2 _ I). rewrite (cmp_refl cmp OK) in SA2. discriminate.
    + destruct (proj2 (X z)) as [<-|J]; [simpl; auto| |auto]. specialize (SB2 _ I). rewrite (cmp_refl cmp OK) in SB2. discriminate.
Qed.

Lemma enum_tree : forall (s : omap) l m, winv s -> (forall k, look cmp s k = m k) -> enumerates cmp m l ->
  pairs (o_heap s) (o_tree s) l.
Proof.
  intros s l m W L EN. destruct (pairs_exist (o_heap s) (o_tree s) (wi_heap cmp s W)) as [l2 PR].
  pose proof (pairs_enum cmp OK s l2 W PR) as EN2.
  replace l with l2; auto. apply enum_unique; [apply EN2|apply EN|].
  intros [k v]. rewrite (proj2 EN), (proj2 EN2), L. tauto.
Qed.

Lemma pairs_keys : forall h (t : list (node K)) (l : list (K * V)), pairs h t l -> map fst l = map fst t.
Proof. exact pairs_keys0. Qed.

(** Deleting the second-to-last key while ranging over a warm cache. *)
Lemma hot_skip : forall k1 p1 k2 p2 pre done fuel i (s : omap),
  winv s -> o_tree s = done ++ pre ++ [(k1, p1); (k2, p2)] ->
  exists i' s' l, hotLoop (script cmp (fun _ k _ => (if same cmp k k1 then [ODel k] else [], true))) fuel (o_ver s)
      (pre ++ [(k1, p1); (k2, p2)]) (List.length done) (hd_error (pre ++ [(k1, p1); (k2, p2)])) i s = Ok (Some (i', s', l)) /\
    map fst l = map fst pre ++ [k1] /\ o_tree s' = done ++ pre ++ [(k2, p2)] /\ winv s'.
Proof.
  intros k1 p1 k2 p2. induction pre as [|[k p] pre IH]; intros done fuel i s W T.
  - cbn [app hotLoop hd_error itNext].
    assert (TN : tNext (o_tree s) p1 = Ok (Some (k2, p2))).
    { rewrite T. apply (tNext_split done k1 p1 [(k2, p2)]). pose proof (wi_nodup cmp s W) as N. rewrite T in N. exact N. }
    destruct (value_at s done k1 p1 [(k2, p2)] W T) as (v & E & G).
    rewrite TN. cbn [bind]. unfold deref. rewrite E. cbn [bind]. unfold script at 1. cbn [fst snd].
    destruct (same_spec cmp OK k1 k1) as [_|]; [|congruence]. cbn [run_res ostep].
    rewrite (get2_look cmp OK) in G by auto. injection G as G.
    destruct (delkey_present cmp OK s k1 v W G) as (a & q & b & s1 & TT & DD & E1 & W1 & L1).
    rewrite DD. cbn [bind negb]. subst s1.
    destruct (N.eqb_spec (o_ver s + 1) (o_ver s)) as [X|_]; [lia|]. cbn [o_ver Len o_tree].
    destruct (N.eqb_spec (o_ver s + 1) (o_ver s)) as [X|_]; [lia|].
    assert (AB : a ++ b = done ++ [(k2, p2)]).
    { assert (S : nsorted (o_tree s)) by apply W. pose proof S as S'. rewrite TT in S. rewrite T in S'.
      pose proof (others_mid a k1 q b S) as O1. pose proof (others_mid done k1 p1 [(k2, p2)] S') as O2.
      rewrite <- TT in O1. cbn [app] in T. rewrite <- T in O2. congruence. }
    unfold Len. cbn [o_tree]. rewrite AB, app_length. cbn [List.length].
    destruct (Nat.leb_spec (List.length done + 1) (S (List.length done))); [|lia].
    cbn [addOut bind]. do 3 eexists. split; [reflexivity|]. split; [auto|]. split; [cbn [o_tree app]; auto|rewrite <- AB; auto].
  - cbn [app hotLoop hd_error itNext].
    assert (TN : tNext (o_tree s) p = Ok (hd_error (pre ++ [(k1, p1); (k2, p2)]))).
    { rewrite T. apply (tNext_split done k p). pose proof (wi_nodup cmp s W) as N. rewrite T in N. exact N. }
    destruct (value_at s done k p _ W T) as (v & E & G).
    rewrite TN. cbn [bind]. unfold deref. rewrite E. cbn [bind]. unfold script at 1. cbn [fst snd].
    destruct (same_spec cmp OK k k1) as [->|_].
    { exfalso. pose proof (wi_sorted cmp s W) as S. rewrite T in S. apply nsorted_mid in S. destruct S as [_ S].
      rewrite Forall_app in S. destruct S as [_ S]. inversion S; subst. simpl in H1. rewrite (cmp_refl cmp OK) in H1. discriminate. }
    cbn [run_res bind negb]. rewrite N.eqb_refl.
    destruct (IH (done ++ [(k, p)]) fuel (S i) s W) as (i' & s' & l & L & F & T' & W').
    { rewrite <- app_assoc. auto. }
    rewrite app_length in L. simpl in L. rewrite Nat.add_1_r in L. rewrite L. cbn [addOut bind].
    do 3 eexists. split; [reflexivity|]. split; [simpl; f_equal; auto|]. split; auto. rewrite T', <- app_assoc. auto.
Qed.

End P.
