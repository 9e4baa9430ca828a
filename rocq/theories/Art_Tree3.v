(** The cached counts, exact search, first and last leaf, and the leaf at an index. *)
From Coq Require Import List ZArith Lia Bool Sorting.Sorted.
From Verif Require Import Base Art_Model Art_Node Art_Node2 Art_Tree Art_Tree2.
Import ListNotations.
Open Scope Z_scope.

(** ** Every child belongs to an entry *)
Lemma NoDup_map_on : forall {A B} (f : A -> B) l, NoDup l -> (forall x y, In x l -> In y l -> f x = f y -> x = y) -> NoDup (map f l).
Proof.
  intros A B f. induction l as [|x l IH]; intros N H; cbn; constructor; inversion N as [|? ? Nx Nl]; subst.
  - intros Hin. apply in_map_iff in Hin as (y & E & Hy). apply Nx. rewrite <- (H y x); auto; [now right|now left].
  - apply IH; [exact Nl|]. intros; apply H; auto; now right.
Qed.

Lemma live_In : forall {C} (cs : list (option C)) k i, In i (live k cs) <-> (k <= i)%nat /\ nth (i - k) cs None <> None.
Proof.
  induction cs as [|o cs IH]; intros k i; cbn [live].
  - split; [easy|]. intros (_ & H). destruct (i - k)%nat; now cbn in H.
  - assert (X : In i (live (S k) cs) <-> (S k <= i)%nat /\ nth (i - k) (o :: cs) None <> None).
    { rewrite IH. split; intros (H1 & H2); (split; [lia|]); replace (i - k)%nat with (S (i - S k)) in * by lia; exact H2. }
    destruct o as [c|]; cbn [In]; rewrite X.
    + split.
      * intros [<-|(H & N)]; [|split; [lia|exact N]]. rewrite Nat.sub_diag. split; [lia|]. cbn. discriminate.
      * intros (H & N). destruct (Nat.eq_dec k i) as [->|D]; [now left|]. right. split; [lia|exact N].
    + split; intros (H & N); (split; [|exact N]).
      * lia.
      * destruct (Nat.eq_dec k i) as [->|D]; [rewrite Nat.sub_diag in N; now cbn in N|lia].
Qed.
Lemma live_length : forall {C} (cs : list (option C)) k, length (live k cs) = length (filter some cs).
Proof. induction cs as [|[c|] cs IH]; intros k; cbn; auto. Qed.

Lemma sorted_nodup : forall {C} (es : list (Z * C)), sortedE es -> NoDup es.
Proof.
  induction 1 as [|e es S IH F]; constructor; auto. intros H. rewrite Forall_forall in F. specialize (F _ H). lia.
Qed.
Lemma sorted_byte : forall {C} (es : list (Z * C)) x y, sortedE es -> In x es -> In y es -> fst x = fst y -> x = y.
Proof.
  intros C es x y S Hx Hy E. induction S as [|e es S IH F]; [easy|]. rewrite Forall_forall in F.
  destruct Hx as [<-|Hx], Hy as [<-|Hy]; auto.
  - specialize (F _ Hy). lia.
  - specialize (F _ Hx). lia.
Qed.

Lemma kids_in : forall {C} (n : inode C) es c, Ents n es -> In (Some c) (kids n) -> exists b, In (b, c) es.
Proof.
  intros C n es c (S & B & H) Hin.
  assert (AR : forall cap lth keys cs, Arr cap lth keys cs es -> In (Some c) cs -> exists b, In (b, c) es).
  { intros cap lth keys cs (_ & _ & _ & ->) Hc. apply in_app_or in Hc as [Hc|Hc].
    - apply in_map_iff in Hc as ((b, c') & E & He). cbn in E. inversion E; subst. now exists b.
    - apply repeat_spec in Hc. discriminate. }
  destruct n as [l keys cs|l keys cs|l keys cs|l cs]; cbn [kids] in Hin.
  - eapply AR; eauto.
  - eapply AR; eauto.
  - destruct H as (Hl & Lk & Lc & Lf & R & I & M). apply In_nth with (d := None) in Hin as (i & Hi & Ei).
    unfold bytesE in B. rewrite Forall_forall in B.
    set (f := fun e : Z * C => Z.to_nat (nth (Z.to_nat (fst e)) keys 0 - 1)).
    assert (K : forall e, In e es -> nth (Z.to_nat (fst e)) keys 0 <> 0 /\ nth (f e) cs None = Some (snd e)).
    { intros (b, x) He. specialize (B _ He). cbn in B. apply M in He; [|exact B]. rewrite kid48 in He. cbn [fst]. unfold f. cbn [fst snd].
      destruct (Z.eqb_spec (nth (Z.to_nat b) keys 0) 0) as [?|D]; [discriminate|]. split; [exact D|exact He]. }
    assert (ND : NoDup (map f es)).
    { apply NoDup_map_on; [now apply sorted_nodup|]. intros x y Hx Hy E. destruct (K _ Hx) as (Kx & _). destruct (K _ Hy) as (Ky & _).
      pose proof (R _ Kx) as (Rx & _). pose proof (R _ Ky) as (Ry & _). unfold f in E.
      assert (E2 : nth (Z.to_nat (fst x)) keys 0 = nth (Z.to_nat (fst y)) keys 0) by lia. apply I in E2; [|exact Kx].
      apply (sorted_byte es); auto. pose proof (B _ Hx). pose proof (B _ Hy). lia. }
    assert (IN : incl (map f es) (live 0 cs)).
    { intros j Hj. apply in_map_iff in Hj as (e & <- & He). apply live_In. split; [lia|]. rewrite Nat.sub_0_r. destruct (K _ He) as (_ & ->). discriminate. }
    assert (Hlive : In i (live 0 cs)) by (apply live_In; split; [lia|]; rewrite Nat.sub_0_r, Ei; discriminate).
    apply (NoDup_length_incl ND) in IN; [|rewrite map_length, live_length; lia].
    apply IN in Hlive. apply in_map_iff in Hlive as ((b, x) & Ef & He). destruct (K _ He) as (_ & Kx). rewrite Ef, Ei in Kx. cbn in Kx. inversion Kx; subst. now exists b.
  - destruct H as (Hl & Lc & M). apply In_nth with (d := None) in Hin as (i & Hi & Ei). exists (Z.of_nat i). apply M; [lia|]. now rewrite Nat2Z.id.
Qed.

Lemma kid_inv : forall {C} (n : inode C) es i c, Ents n es -> kid n i = Some c -> exists es1 b es2, es = es1 ++ (b, c) :: es2 /\ i = idx n (length es1) b.
Proof.
  intros C n es i c E K. pose proof E as (S & B & H).
  assert (AR : forall cap lth keys cs, Arr cap lth keys cs es -> nth i cs None = Some c -> exists es1 b es2, es = es1 ++ (b, c) :: es2 /\ i = length es1).
  { intros cap lth keys cs A N. destruct (arr_split_or _ _ _ _ _ i A) as [(es1 & b & c' & es2 & -> & ->)|X]; [|congruence].
    destruct A as (_ & _ & _ & ->). rewrite map_app, <- app_assoc in N. cbn in N.
    replace (length es1) with (length (map (fun e : Z * C => Some (snd e)) es1)) in N by apply map_length. rewrite nth_app_at in N. inversion N; subst. eauto. }
  assert (BY : forall b, 0 <= b < 256 -> In (b, c) es -> exists es1 b' es2, es = es1 ++ (b', c) :: es2 /\ Z.to_nat b = Z.to_nat b').
  { intros b Hb Hin. apply in_split in Hin as (es1 & es2 & ->). eauto. }
  destruct n as [l keys cs|l keys cs|l keys cs|l cs]; cbn [idx].
  - eapply AR; eauto.
  - eapply AR; eauto.
  - assert (Hi : (i < 256)%nat).
    { destruct H as (_ & Lk & _). rewrite kid48 in K. destruct (Nat.lt_ge_cases i 256) as [?|G]; [assumption|]. rewrite nth_overflow in K by lia. discriminate. }
    destruct (BY (Z.of_nat i) ltac:(lia)) as (es1 & b' & es2 & -> & Eb).
    + apply (kid_byte _ _ (Z.of_nat i) c E I); [lia|]. now rewrite Nat2Z.id.
    + rewrite Nat2Z.id in Eb. eauto.
  - assert (Hi : (i < 256)%nat).
    { destruct H as (_ & Lk & _). cbn in K. destruct (Nat.lt_ge_cases i 256) as [?|G]; [assumption|]. rewrite nth_overflow in K by lia. discriminate. }
    destruct (BY (Z.of_nat i) ltac:(lia)) as (es1 & b' & es2 & -> & Eb).
    + apply (kid_byte _ _ (Z.of_nat i) c E I); [lia|]. now rewrite Nat2Z.id.
    + rewrite Nat2Z.id in Eb. eauto.
Qed.

(** ** The cache of counts *)
Lemma redoAll_spec : forall f cs, (forall c, In (Some c) cs -> exists r, f c = Ok r) ->
  exists done, redoAll f cs = Ok done /\ forall i c, nth i cs None = Some c -> exists r, f c = Ok r /\ nth i done None = Some r.
Proof.
  intros f. induction cs as [|[c|] cs IH]; intros H; cbn [redoAll].
  - exists []. split; [reflexivity|]. intros [|i] c; discriminate.
  - destruct (H c (or_introl eq_refl)) as (r & Hr). destruct IH as (done & Hd & Nd); [intros; apply H; now right|].
    exists (Some r :: done). unfold bind. rewrite Hr, Hd. split; [reflexivity|]. intros [|i] x E; cbn in *; [inversion E; subst; eauto|now apply Nd].
  - destruct IH as (done & Hd & Nd); [intros; apply H; now right|].
    exists (None :: done). unfold bind. rewrite Hd. split; [reflexivity|]. intros [|i] x E; cbn in *; [discriminate|now apply Nd].
Qed.

Lemma slot_setKids : forall {C} (n : inode C) cs j, slot (setKids n cs) j = slot n j.
Proof. now intros C []. Qed.
Lemma lo_setKids : forall {C} (n : inode C) cs, lo (setKids n cs) = lo n.
Proof. now intros C []. Qed.

Lemma Wf_setPren : forall p b ls n, Wf p b ls -> Wf p (setPren n b) ls /\ prenOf (setPren n b) = n.
Proof. intros p b ls n W. inversion W; subst; cbn; (split; [|reflexivity]); [now constructor|eapply Wf_inner; eauto]. Qed.

Definition Redone (p : bytes) (b : bnode) (ls : list leaf) : Prop := exists b', redo b = Ok (b', length ls) /\ Wf p b' ls /\ prenOf b' = prenOf b.

Lemma assign_spec : forall q nd done es2 lss2 es1 lss1 cs,
  Ents (setKids nd cs) (es1 ++ es2) -> WfK q es1 lss1 -> prens 0 es1 lss1 -> WfK q es2 lss2 ->
  Forall2 (fun p ls => exists c', nth (slot nd (idx nd (fst p) (fst (snd p)))) done None = Some (c', length ls) /\ Wf (q ++ [fst (snd p)]) c' ls)
          (indexed (length es1) es2) lss2 ->
  exists cs' es', assign (map (fun p => slot nd (idx nd (fst p) (fst (snd p)))) (indexed (length es1) es2)) (length (concat lss1)) done cs
                  = (cs', length (concat (lss1 ++ lss2))) /\
    Ents (setKids nd cs') es' /\ WfK q es' (lss1 ++ lss2) /\ prens 0 es' (lss1 ++ lss2) /\ map fst es' = map fst (es1 ++ es2).
Proof.
  intros q nd done. induction es2 as [|[b c] es2 IH]; intros lss2 es1 lss1 cs E W1 P1 W2 F; cbn [indexed map] in *.
  - inversion W2; subst. cbn [assign]. exists cs, es1. rewrite !app_nil_r in *. auto.
  - inversion W2 as [|? ? ? ? ls lss2' Wc Wr]; subst. inversion F as [|? ? ? ? (c' & Hn & Wc') F']; subst. cbn [fst snd] in *.
    cbn [assign]. rewrite Hn.
    destruct (Wf_setPren _ _ _ (length (concat lss1)) Wc') as (Wp & Hp).
    pose proof (replaceKid_spec _ es1 es2 b c (setPren (length (concat lss1)) c') E) as E'.
    rewrite replace_setKids, setKids_twice, kids_setKids, idx_setKids, slot_setKids in E'.
    assert (Ls : length (es1 ++ [(b, setPren (length (concat lss1)) c')]) = S (length es1)) by (rewrite app_length; cbn; lia).
    assert (Lc : length (concat (lss1 ++ [ls])) = (length (concat lss1) + length ls)%nat) by (rewrite concat_app, app_length; cbn; rewrite app_nil_r; reflexivity).
    specialize (IH lss2' (es1 ++ [(b, setPren (length (concat lss1)) c')]) (lss1 ++ [ls])). rewrite Ls, Lc, <- !app_assoc in IH. cbn [app] in IH.
    destruct (IH _ E') as (cs' & es' & A & E2 & W' & P' & M).
    + apply WfK_app; [exact W1|]. constructor; [exact Wp|constructor].
    + apply prens_app; [apply (WfK_length _ _ _ W1)|]. split; [exact P1|]. cbn. auto.
    + exact Wr.
    + exact F'.
    + exists cs', es'. split; [exact A|]. split; [exact E2|]. split; [exact W'|]. split; [exact P'|]. rewrite M, !map_app. reflexivity.
Qed.

Lemma redo_inner : forall p pren comp ok sub nd es lss,
  Ents nd es -> WfK (p ++ comp) es lss -> sub = length (concat lss) -> (ok = true -> prens 0 es lss) ->
  (forall es1 b c es2 lss1 ls lss2, es = es1 ++ (b, c) :: es2 -> lss = lss1 ++ ls :: lss2 ->
     WfK (p ++ comp) es1 lss1 -> Wf ((p ++ comp) ++ [b]) c ls -> WfK (p ++ comp) es2 lss2 -> Redone ((p ++ comp) ++ [b]) c ls) ->
  exists nd' es', redo (BInner pren comp ok sub nd) = Ok (BInner pren comp true sub nd', sub) /\
    Ents nd' es' /\ WfK (p ++ comp) es' lss /\ prens 0 es' lss /\ map fst es' = map fst es /\
    (forall j b, idx nd' j b = idx nd j b) /\ lo nd' = lo nd.
Proof.
  intros p pren comp ok sub nd es lss E WK Es Pr IH. cbn [redo]. destruct ok.
  { exists nd, es. repeat (split; [auto|]). auto. }
  assert (IHin : forall b c, In (b, c) es -> exists r, redo c = Ok r).
  { intros b c Hin. apply in_split in Hin as (es1 & es2 & ->). destruct (WfK_split1 _ _ _ _ _ _ WK) as (lss1 & ls & lss2 & -> & W1 & Wc & W2).
    destruct (IH _ _ _ _ _ _ _ eq_refl eq_refl W1 Wc W2) as (b' & Hr & _). eauto. }
  destruct (redoAll_spec redo (kids nd)) as (done & Hd & Nd).
  { intros c Hc. destruct (kids_in _ _ _ E Hc) as (b & Hb). eauto. }
  unfold bind. rewrite Hd. rewrite (order_spec _ _ E).
  destruct (assign_spec (p ++ comp) nd done es lss [] [] (kids nd)) as (cs' & es' & A & E' & W' & P' & M).
  - rewrite setKids_same. exact E.
  - constructor.
  - exact I.
  - exact WK.
  - cbn [length].
    assert (X : forall es2 lss2 es1 lss1, es = es1 ++ es2 -> lss = lss1 ++ lss2 -> WfK (p ++ comp) es1 lss1 -> WfK (p ++ comp) es2 lss2 ->
      Forall2 (fun p0 ls => exists c', nth (slot nd (idx nd (fst p0) (fst (snd p0)))) done None = Some (c', length ls) /\ Wf ((p ++ comp) ++ [fst (snd p0)]) c' ls)
        (indexed (length es1) es2) lss2).
    { induction es2 as [|[b c] es2 IH2]; intros lss2 es1 lss1 Ee El W1 W2; inversion W2 as [|? ? ? ? ls lss2' Wc Wr]; subst; cbn [indexed].
      - constructor.
      - constructor.
        + cbn [fst snd]. destruct (IH es1 b c es2 lss1 ls lss2' eq_refl eq_refl W1 Wc Wr) as (c' & Hr & Wc' & _).
          pose proof (kid_slot _ _ _ _ _ E) as Ks. destruct (Nd _ _ Ks) as (r & Hr2 & Hn). rewrite Hr in Hr2. inversion Hr2; subst r. eauto.
        + specialize (IH2 lss2' (es1 ++ [(b, c)]) (lss1 ++ [ls])). rewrite app_length in IH2. cbn [length] in IH2. rewrite Nat.add_1_r in IH2.
          apply IH2; [now rewrite <- app_assoc|now rewrite <- app_assoc| |exact Wr]. apply WfK_app; [exact W1|]. constructor; [exact Wc|constructor]. }
    apply (X es lss [] []); auto. constructor.
  - cbn [app concat length] in *. rewrite A, Es, Nat.eqb_refl. exists (setKids nd cs'), es'. split; [reflexivity|].
    split; [exact E'|]. split; [exact W'|]. split; [exact P'|]. split; [exact M|]. split; [intros; apply idx_setKids|apply lo_setKids].
Qed.

Lemma redo_spec : forall p b ls, Wf p b ls -> Redone p b ls.
Proof.
  apply Wf_rec.
  - intros p pren l P B. exists (BLeaf pren l). cbn. repeat split. now constructor.
  - intros p pren comp ok sub nd es lss E Lo WK Es Pr IH.
    destruct (redo_inner p pren comp ok sub nd es lss E WK Es Pr IH) as (nd' & es' & R & E' & W' & P' & M & _ & Lo').
    exists (BInner pren comp true sub nd'). rewrite R, Es. split; [reflexivity|]. split; [|reflexivity].
    eapply Wf_inner; eauto. rewrite Lo'. apply (f_equal (@length Z)) in M. rewrite !map_length in M. lia.
Qed.

Lemma prenAt_spec : forall p pren comp ok sub nd es1 k c es2 lss1 ls lss2,
  Ents nd (es1 ++ (k, c) :: es2) -> WfK (p ++ comp) (es1 ++ (k, c) :: es2) (lss1 ++ ls :: lss2) -> length es1 = length lss1 ->
  sub = length (concat (lss1 ++ ls :: lss2)) -> (ok = true -> prens 0 (es1 ++ (k, c) :: es2) (lss1 ++ ls :: lss2)) ->
  prenAt (BInner pren comp ok sub nd) (idx nd (length es1) k) = Ok (length (concat lss1)).
Proof.
  intros p pren comp ok sub nd es1 k c es2 lss1 ls lss2 E WK Ll Es Pr.
  destruct (redo_inner p pren comp ok sub nd _ _ E WK Es Pr) as (nd' & es' & R & E' & W' & P' & M & Hi & _).
  { intros. now apply redo_spec. }
  unfold prenAt, bind. rewrite R. cbn [fst].
  rewrite map_app in M. cbn [map fst] in M. apply map_eq_app in M as (es1' & es2' & -> & M1 & M2).
  destruct es2' as [|[k' c'] es2']; [discriminate|]. cbn [map fst] in M2. inversion M2; subst k'.
  assert (Le : length es1' = length es1) by (apply (f_equal (@length Z)) in M1; now rewrite !map_length in M1).
  rewrite <- Hi, <- Le, (kid_at _ _ _ _ _ E').
  apply prens_app in P' as (_ & P2); [|lia]. cbn in P2. now rewrite (proj1 P2).
Qed.

(** What a search writes leaves the leaves as they are. *)
Lemma refresh_spec : forall b b', refresh b b' -> forall p ls, Wf p b ls -> Wf p b' ls /\ prenOf b' = prenOf b.
Proof.
  induction 1 as [b|b b' n R|pren comp ok sub nd i c c' K R IH|a b c R1 IH1 R2 IH2]; intros p ls W.
  - auto.
  - destruct (redo_spec _ _ _ W) as (b2 & R2 & W2 & P2). rewrite R in R2. inversion R2; subst. auto.
  - split; [|reflexivity]. inversion W as [|? ? ? ? ? ? es lss ? E Lo WK El Es Pr]; subst.
    destruct (kid_inv _ _ _ _ E K) as (es1 & b & es2 & -> & ->).
    destruct (WfK_split1 _ _ _ _ _ _ WK) as (lss1 & ls & lss2 & -> & W1 & Wc & W2).
    destruct (IH _ _ Wc) as (Wc' & Pc).
    eapply Wf_inner with (lss := lss1 ++ ls :: lss2).
    + apply replaceKid_spec with (c := c). exact E.
    + replace (lo (replaceKid nd (idx nd (length es1) b) c')) with (lo nd) by (destruct nd; reflexivity). rewrite app_length in *. exact Lo.
    + apply WfK_app; [exact W1|]. constructor; [exact Wc'|exact W2].
    + reflexivity.
    + reflexivity.
    + intros Ho. specialize (Pr Ho). pose proof (WfK_length _ _ _ W1) as L1.
      apply prens_app in Pr as (Pr1 & Pr2); [|exact L1]. apply prens_app; [exact L1|]. split; [exact Pr1|]. cbn in *. now rewrite Pc.
  - destruct (IH1 _ _ W) as (W1 & P1). destruct (IH2 _ _ W1) as (W2 & P2). split; [exact W2|congruence].
Qed.

(** ** Exact search *)
Theorem get_spec : forall key, Bytes key -> forall p b ls, Wf p b ls -> get key (length p) b = Ok (lget key ls).
Proof.
  intros key Bk. apply Wf_rec.
  - intros p pren l P B. cbn. now destruct (beqb key (lKey l)).
  - intros p pren comp ok sub nd es lss E Lo WK Es Pr IH. remember (BInner pren comp ok sub nd) as bb eqn:Ebb. rewrite Ebb at 1. cbn [get].
    destruct (checkCompressed comp key (length p)) as [x|] eqn:Ck; [now rewrite (no_match_none _ _ _ _ _ _ WK Ck)|].
    rewrite <- app_length. pose proof (At_bytes _ (length (p ++ comp)) Bk) as Bb.
    destruct (kid_cases _ _ _ key (proj1 E) WK) as [(es1 & c & es2 & lss1 & ls & lss2 & Ee & El & W1 & Wc & W2 & N1 & N2)|(NI & N)].
    2: { now rewrite (child_notin _ _ _ E Bb NI), (proj2 (lget_none _ _) N). }
    remember (At key (length (p ++ comp))) as k eqn:Ekk. clear Ekk. rewrite Ee in E.
    rewrite (child_in _ _ _ _ _ E), withKid_kid, (kid_at _ _ _ _ _ E).
    replace (S (length (p ++ comp))) with (length ((p ++ comp) ++ [k])) by (rewrite (app_length (p ++ comp)); cbn; lia).
    rewrite (IH _ _ _ _ _ _ _ Ee El W1 Wc W2). unfold bind. rewrite <- Ebb.
    rewrite Ebb, (prenAt_spec p pren comp ok sub nd es1 k c es2 lss1 ls lss2); [|exact E|rewrite <- Ee, <- El; exact WK|apply (WfK_length _ _ _ W1)|rewrite <- El; exact Es|rewrite <- Ee, <- El; exact Pr].
    rewrite El, concat_app. cbn [concat]. rewrite (lget_before _ _ _ N1), (lget_after _ _ _ N2).
    destruct (lget key ls) as [[l i]|]; cbn; [|reflexivity]. now rewrite Nat.add_comm.
Qed.

(** ** First, last and n-th leaf *)
Lemma first_spec : forall p b ls, Wf p b ls -> recursiveFirst b = hd_error ls.
Proof.
  apply Wf_rec.
  - reflexivity.
  - intros p pren comp ok sub nd es lss E Lo WK Es Pr IH. cbn [recursiveFirst]. unfold first. rewrite (next_first _ _ E).
    destruct es as [|[b c] es]; [apply two_kids in Lo; cbn in Lo; lia|]. cbn [option_map snd].
    rewrite withKid_kid. pose proof (kid_at nd [] b c es E) as K. cbn [length] in K. rewrite K.
    inversion WK as [|? ? ? ? ls lss' Wc Wr]; subst. rewrite (IH [] b c es [] ls lss' eq_refl eq_refl ltac:(constructor) Wc Wr).
    cbn [concat]. pose proof (Wf_ne _ _ _ Wc). now destruct ls.
Qed.

Definition lastLeaf (ls : list leaf) : option leaf := hd_error (rev ls).
Lemma last_app : forall a b, b <> [] -> lastLeaf (a ++ b) = lastLeaf b.
Proof. intros a b H. unfold lastLeaf. rewrite rev_app_distr. destruct b as [|x b _] using rev_ind; [easy|]. rewrite rev_app_distr. reflexivity. Qed.

Lemma last_spec : forall p b ls, Wf p b ls -> recursiveLast b = lastLeaf ls.
Proof.
  apply Wf_rec.
  - reflexivity.
  - intros p pren comp ok sub nd es lss E Lo WK Es Pr IH. cbn [recursiveLast]. unfold lastKid. rewrite (prev_last _ _ E).
    destruct es as [|[b c] es _] using rev_ind; [apply two_kids in Lo; cbn in Lo; lia|]. rewrite rev_app_distr. cbn [rev app option_map snd].
    rewrite app_length. cbn [length]. replace (length es + 1 - 1)%nat with (length es) by lia.
    rewrite withKid_kid. rewrite (kid_at _ _ _ _ _ E).
    destruct (WfK_split1 _ _ _ _ _ _ WK) as (lss1 & ls & lss2 & -> & W1 & Wc & W2).
    rewrite (IH _ _ _ _ _ _ _ eq_refl eq_refl W1 Wc W2). inversion W2; subst.
    rewrite concat_app. cbn [concat]. rewrite app_nil_r. symmetry. apply last_app. now apply (Wf_ne _ _ _ Wc).
Qed.

Lemma at_spec : forall p b ls, Wf p b ls -> forall i, at_ b i = if i <? 0 then None else nth_error ls (Z.to_nat i).
Proof.
  apply (Wf_rec (fun _ b ls => forall i, at_ b i = if i <? 0 then None else nth_error ls (Z.to_nat i))).
  - intros p pren l P B i. cbn [at_]. destruct (Z.ltb_spec i 0) as [L|L]; [reflexivity|]. destruct (Z.eqb_spec i 0) as [->|D]; [reflexivity|].
    symmetry. apply nth_error_None. cbn. lia.
  - intros p pren comp ok sub nd es lss E Lo WK Es Pr IH i. cbn [at_]. destruct (Z.ltb_spec i 0) as [L|L]; [reflexivity|].
    destruct (Z.leb_spec (Z.of_nat sub) i) as [G|G]; [symmetry; apply nth_error_None; lia|].
    rewrite (visit_spec _ _ E).
    match goal with |- ?g _ _ = _ => set (go := g) end.
    assert (X : forall es2 lss2 es1 lss1, es = es1 ++ es2 -> lss = lss1 ++ lss2 -> WfK (p ++ comp) es1 lss1 -> WfK (p ++ comp) es2 lss2 ->
      Z.of_nat (length (concat lss1)) <= i ->
      go (map (fun x => idx nd (fst x) (fst (snd x))) (indexed (length es1) es2)) (Z.of_nat (length (concat lss1))) =
      nth_error (concat lss2) (Z.to_nat (i - Z.of_nat (length (concat lss1))))).
    { induction es2 as [|[b c] es2 IH2]; intros lss2 es1 lss1 Ee El W1 W2 Li; inversion W2 as [|? ? ? ? ls lss2' Wc Wr]; subst; cbn [indexed map fst snd].
      - cbn. now destruct (Z.to_nat _).
      - unfold go at 1. cbn [fst snd]. rewrite (kid_at _ _ _ _ _ E). rewrite (subn_length _ _ _ Wc). rewrite withKid_kid, (kid_at _ _ _ _ _ E).
        cbn [concat]. destruct (Z.ltb_spec i (Z.of_nat (length (concat lss1)) + Z.of_nat (length ls))) as [H|H].
        + rewrite (IH es1 b c es2 lss1 ls lss2' eq_refl eq_refl W1 Wc Wr). destruct (Z.ltb_spec (i - Z.of_nat (length (concat lss1))) 0); [lia|].
          rewrite nth_error_app1 by lia. reflexivity.
        + fold go. specialize (IH2 lss2' (es1 ++ [(b, c)]) (lss1 ++ [ls])). rewrite app_length in IH2. cbn [length] in IH2. rewrite Nat.add_1_r in IH2.
          rewrite concat_app, app_length in IH2. cbn [concat] in IH2. rewrite app_nil_r, Nat2Z.inj_add in IH2.
          rewrite IH2; [|now rewrite <- app_assoc|now rewrite <- app_assoc| |exact Wr|lia].
          * rewrite nth_error_app2 by lia. f_equal. lia.
          * apply WfK_app; [exact W1|]. constructor; [exact Wc|constructor]. }
    specialize (X es lss [] [] eq_refl eq_refl ltac:(constructor) WK). cbn [concat length] in X. change (Z.of_nat 0) with 0 in X. rewrite X by lia. f_equal. lia.
Qed.
