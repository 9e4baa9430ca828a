(** Histories of calls, with the iterator that [At] keeps. *)
From Coq Require Import List ZArith Lia Bool Sorting.Sorted.
From Verif Require Import Base Art_Model Art_Node Art_Node2 Art_Tree Art_Tree2 Art_Tree3 Art_Search Art_Iter Art_Spec Art_Proofs.
Import ListNotations.
Open Scope Z_scope.

(** The iterator kept by [At] is at its leaf. *)
Definition Kept (t : tree) (ls : list leaf) (it : iterator) : Prop :=
  itClosed it = true \/
  (itReverse it = false /\ exists pre rem, ls = pre ++ rem /\ Left t it rem /\ itIdx it = Z.of_nat (length pre) - 1 /\
   Forall (fun l => inRange it (lKey l) = true) rem).

Record Inv (n : Z) (t : tree) (ls : list leaf) : Prop := mkInv {
  inv_shape : Shape t ls;
  inv_ids : Forall (fun l => lId l < n) ls;
  inv_cache : forall it, atCache t = Some it -> itVersion it <= version t /\ (itVersion it = version t -> Kept t ls it) }.

Lemma left_root : forall t t' it rem ls b', version t' = version t -> root t' = Some b' -> Wf [] b' ls ->
  (forall b ls0, root t = Some b -> Wf [] b ls0 -> ls0 = ls) -> Left t it rem -> Left t' it rem.
Proof.
  intros t t' it rem ls b' V R W H (C & V0 & b & ls0 & Rt & W0 & D). split; [exact C|]. split; [congruence|].
  exists b', ls. split; [exact R|]. split; [exact W|]. now rewrite <- (H b ls0 Rt W0).
Qed.

Lemma kept_next : forall t ls it, StronglySorted klt ls -> Kept t ls it -> exists it' ok, Next t it it' ok /\
  (ok = true -> nth_error ls (Z.to_nat (itIdx it + 1)) = itLeaf it' /\ 0 <= itIdx it + 1 /\ itVersion it' = itVersion it /\ Kept t ls it').
Proof.
  intros t ls it So [C|(Er & pre & rem & -> & L & Ix & F)].
  - exists it, false. split; [|discriminate]. exists 0%nat. intros fuel _. unfold nextIter. now rewrite C.
  - destruct (next_left t it rem L) as (it' & ok & N & [(-> & C & F')|(-> & l1 & l & l2 & E & F' & IR & El & Ei & Et & Er' & Ev & D)]).
    + exists it', false. split; [exact N|discriminate].
    + exists it', true. split; [exact N|]. intros _. subst rem. destruct l1 as [|x l1].
      2:{ cbn in F. inversion F; inversion F'; subst. congruence. }
      cbn [app] in *. replace (Z.to_nat (itIdx it + 1)) with (length pre) by lia. split; [rewrite nth_error_app2, Nat.sub_diag by lia; symmetry; exact El|].
      split; [lia|]. split; [exact Ev|]. destruct D as [(C & _)|(Ec & L')]; [now left|]. right. split; [congruence|].
      exists (pre ++ [l]), l2. split; [now rewrite <- app_assoc|]. split; [exact L'|]. split; [unfold bump in Ei; rewrite Er in Ei; rewrite Ei, app_length; cbn; lia|].
      apply sorted_part in So. apply StronglySorted_inv in So as (So & Fl). apply Forall_cons_iff in F as (_ & F). rewrite Forall_forall in *. intros x Hx.
      rewrite (inRange_step it it' l x); auto. rewrite Er. cbn. now apply Fl.
Qed.

Lemma self_not_below : forall l ls, In l ls -> ~ belowAll (lKey l) (map asEntry ls).
Proof.
  intros l ls H (_ & p & c & c' & r & E & Lt & A). destruct (A (asEntry l)) as (s & Es); [now apply in_map|]. cbn in Es. rewrite Es in E. apply app_inv_head in E. injection E as -> _. lia.
Qed.

Lemma shape_bytes : forall t ls, Shape t ls -> Forall (fun l => Bytes (lKey l)) ls.
Proof.
  intros t ls (R & _). destruct (root t) as [b|]; [|subst; constructor]. eapply Forall_impl; [|exact (proj1 Wf_path _ _ _ R)]. cbn. tauto.
Qed.

(** A new iterator from a leaf of the tree. *)
Lemma iter_at : forall t ls l1 l l2, Shape t ls -> ls = l1 ++ l :: l2 ->
  iter (lKey l) [] t = Ok (mkIter (version t) [] false (lKey l) [] false (Z.of_nat (length l1) - 1) None).
Proof.
  intros t ls l1 l l2 Sh E. pose proof (shape_sorted _ _ Sh) as So. pose proof (shape_bytes _ _ Sh) as Bs. rewrite Forall_forall in Bs.
  assert (Hl : In l ls) by (rewrite E; apply in_or_app; right; now left).
  pose proof Sh as (R & Sz). unfold iter. destruct (root t) as [b|]; [|subst; now destruct l1].
  destruct (Z.ltb_spec (size t) 1) as [L|_]; [rewrite Sz, E, app_length in L; cbn in L; lia|].
  destruct (find_from GTE (lKey l) t ls Sh (Bs _ Hl) (or_introl eq_refl) (fun _ => self_not_below _ _ Hl)) as (a & Ea & Sa).
  assert (Sa' : seen a = sfirst (fun k => negb (ltb k (lKey l))) (map asEntry ls)).
  { rewrite Sa, same_nil. destruct (lKey l); [|reflexivity]. cbn [emptyFinds]. apply sfirst_ext. now intros [|]. }
  rewrite E, sfirst_at in Sa'.
  - rewrite Ea. cbn [bind]. destruct a as [[x beg]|]; [|discriminate]. cbn in Sa'. injection Sa' as _ _ ->.
    destruct (find_empty LT t ls Sh ltac:(discriminate)) as (z & Ez & Sz'). rewrite Ez. cbn [bind]. destruct z as [z|]; [reflexivity|].
    exfalso. cbn in Sz'. rewrite E in Sz'. destruct l2 as [|y l2 _] using rev_ind; [rewrite slast_at in Sz'; auto; discriminate|].
    replace (l1 ++ l :: l2 ++ [y]) with ((l1 ++ l :: l2) ++ y :: []) in Sz' by now rewrite <- app_assoc.
    rewrite slast_at in Sz'; auto. discriminate.
  - apply Forall_forall. intros x Hx. apply negb_false_iff. rewrite E in So. clear -So Hx.
    induction l1 as [|y l1 IH]; [easy|]. cbn in So. apply StronglySorted_inv in So as (So & F). destruct Hx as [->|Hx]; [|auto].
    rewrite Forall_forall in F. apply klt_ltb, F. apply in_or_app. right. now left.
  - apply negb_true_iff. rewrite ltb_bcmp, bcmp_refl. reflexivity.
Qed.

Lemma first_split : forall {A} (P : A -> bool) a x c a' x' c', a ++ x :: c = a' ++ x' :: c' ->
  Forall (fun x => P x = false) a -> P x = true -> Forall (fun x => P x = false) a' -> P x' = true -> a = a' /\ x = x' /\ c = c'.
Proof.
  intros A P. induction a as [|y a IH]; intros x c [|z a'] x' c' E F Px F' Px'; cbn in E; injection E as H1 H2.
  - auto.
  - subst. inversion F'; subst. congruence.
  - subst. inversion F; subst. congruence.
  - subst z. apply Forall_cons_iff in F as (_ & F). apply Forall_cons_iff in F' as (_ & F'). destruct (IH x c a' x' c' H2) as (-> & -> & ->); auto.
Qed.

(** The first step of that iterator. *)
Lemma iter_at_next : forall t ls l1 l l2 b, Shape t ls -> ls = l1 ++ l :: l2 -> root t = Some b ->
  exists it', Next t (mkIter (version t) [] false (lKey l) [] false (Z.of_nat (length l1) - 1) None) it' true /\ itVersion it' = version t /\ Kept t ls it'.
Proof.
  intros t ls l1 l l2 b Sh E Rt. set (it := mkIter (version t) [] false (lKey l) [] false (Z.of_nat (length l1) - 1) None).
  pose proof (shape_sorted _ _ Sh) as So. pose proof Sh as (R & _). rewrite Rt in R.
  assert (L : Left t it ls) by (apply (new_left t b ls (lKey l) [] false); auto).
  assert (IR : forall x, inRange it (lKey x) = negb (ltb (lKey x) (lKey l))) by (intros x; rewrite inRange_ok; unfold startOk, endOk; cbn; now rewrite andb_true_r).
  assert (Lo : Forall (fun x => inRange it (lKey x) = false) l1).
  { apply Forall_forall. intros x Hx. rewrite IR. apply negb_false_iff. rewrite E in So. clear -So Hx.
    induction l1 as [|y l1 IH]; [easy|]. cbn in So. apply StronglySorted_inv in So as (So & F). destruct Hx as [->|Hx]; [|auto].
    rewrite Forall_forall in F. apply klt_ltb, F. apply in_or_app. right. now left. }
  assert (Il : inRange it (lKey l) = true) by (rewrite IR, ltb_bcmp, bcmp_refl; reflexivity).
  destruct (next_left t it ls L) as (it' & ok & N & [(-> & C & F')|(-> & a & x & c & E2 & F' & Ix & El & Ei & Et & Er' & Ev & D)]).
  - exfalso. rewrite Forall_forall in F'. rewrite (F' l) in Il; [discriminate|]. rewrite E. apply in_or_app. right. now left.
  - exists it'. split; [exact N|]. split; [exact Ev|].
    assert (Sp : a = l1 /\ x = l /\ c = l2).
    { rewrite E in E2. symmetry in E2. exact (first_split (fun x => inRange it (lKey x)) a x c l1 l l2 E2 F' Ix Lo Il). }
    destruct Sp as (-> & -> & ->). destruct D as [(C & _)|(Ec & L')]; [now left|]. right. split; [now rewrite Er'|].
    exists (l1 ++ [l]), l2. split; [now rewrite <- app_assoc|]. split; [exact L'|]. split; [rewrite Ei; cbn; rewrite app_length; cbn; lia|].
    rewrite E in So. apply sorted_part in So. apply StronglySorted_inv in So as (So & Fl). rewrite Forall_forall in *. intros y Hy.
    rewrite (inRange_step it it' l y); auto; [|cbn; now apply Fl]. rewrite IR. apply negb_true_iff, ltb_asym, klt_ltb. now apply Fl.
Qed.

Lemma nth_split' : forall {A} (l : list A) i x, nth_error l i = Some x -> exists l1 l2, l = l1 ++ x :: l2 /\ length l1 = i.
Proof. intros A l i x H. now apply nth_error_split. Qed.

Lemma at_inv : forall n t ls i, Inv n t ls -> exists t', AtGives i t t' (if i <? 0 then None else nth_error ls (Z.to_nat i)) /\ Inv n t' ls /\ size t' = size t.
Proof.
  intros n t ls i [Sh Id Ca]. pose proof (shape_sorted _ _ Sh) as So. destruct (root t) as [b|] eqn:Rt.
  2:{ exists t. split; [|split; [split; assumption|reflexivity]]. exists 0%nat. intros fuel _. unfold at_cached. rewrite Rt. destruct Sh as (R & _). rewrite Rt in R. subst. destruct (i <? 0), (Z.to_nat i); reflexivity. }
  pose proof Sh as (W & Sz). rewrite Rt in W. pose proof (at_spec _ _ _ W i) as At.
  assert (Keep : forall t', root t' = Some b -> size t' = size t -> version t' = version t -> forall it, Kept t ls it -> Kept t' ls it).
  { intros t' R1 R2 R3 it [C|(Er & pre & rem & E & L & Ix & F)]; [now left|]. right. split; [exact Er|]. exists pre, rem. split; [exact E|]. split; [|split; assumption].
    destruct L as (C & V & b0 & ls0 & Rt0 & W0 & D). split; [exact C|]. split; [congruence|]. exists b0, ls0. split; [congruence|]. split; assumption. }
  assert (Mk : forall c, (forall it, c = Some it -> itVersion it <= version t /\ (itVersion it = version t -> Kept t ls it)) -> Inv n (mkTree (root t) (size t) (version t) c) ls).
  { intros c H. split; [|exact Id|].
    - split; [cbn; rewrite Rt; exact W|exact Sz].
    - cbn [atCache version]. intros it E. destruct (H it E) as (H1 & H2). split; [exact H1|]. intros E2. apply Keep; auto. }
  (* the slow path *)
  assert (Slow : exists t', (exists N, forall fuel, (N <= fuel)%nat ->
      match at_ b i with
        | Some l =>
            if 1 <? size t then
              do it <- iter (lKey l) [] t ;
              do r <- nextIter fuel t it ;
              match r with
              | Some (it', _) => Ok (Some (mkTree (root t) (size t) (version t) (Some it'), Some l))
              | None => Ok None
              end
            else Ok (Some (mkTree (root t) (size t) (version t) None, Some l))
        | None => Ok (Some (mkTree (root t) (size t) (version t) None, None))
        end = Ok (Some (t', if i <? 0 then None else nth_error ls (Z.to_nat i)))) /\ Inv n t' ls /\ size t' = size t).
  { rewrite At. destruct (i <? 0).
    - exists (mkTree (root t) (size t) (version t) None). split; [exists 0%nat; reflexivity|]. split; [apply Mk; discriminate|reflexivity].
    - destruct (nth_error ls (Z.to_nat i)) as [l|] eqn:Nl.
      2:{ exists (mkTree (root t) (size t) (version t) None). split; [exists 0%nat; reflexivity|]. split; [apply Mk; discriminate|reflexivity]. }
      destruct (1 <? size t).
      2:{ exists (mkTree (root t) (size t) (version t) None). split; [exists 0%nat; reflexivity|]. split; [apply Mk; discriminate|reflexivity]. }
      destruct (nth_error_split _ _ Nl) as (l1 & l2 & E & El). destruct (iter_at_next t ls l1 l l2 b Sh E Rt) as (it' & (N & HN) & V & K).
      exists (mkTree (root t) (size t) (version t) (Some it')). split; [|split; [|reflexivity]].
      + exists N. intros fuel Lf. rewrite (iter_at t ls l1 l l2 Sh E). cbn [bind]. rewrite (HN fuel Lf). reflexivity.
      + apply Mk. intros it Ei. injection Ei as <-. split; [lia|auto]. }
  destruct Slow as (ts & (Ns & HNs) & Is & Zs). rewrite Rt in HNs.
  destruct (atCache t) as [it|] eqn:Ec.
  2:{ exists ts. split; [|auto]. exists Ns. intros fuel Lf. unfold at_cached. rewrite Rt, Ec. now apply HNs. }
  destruct ((itVersion it =? version t) && (i =? itIdx it + 1)) eqn:Hit.
  2:{ exists ts. split; [|auto]. exists Ns. intros fuel Lf. unfold at_cached. rewrite Rt, Ec, Hit. now apply HNs. }
  pose proof Hit as Hit'. apply andb_true_iff in Hit' as (V & Ei). apply Z.eqb_eq in V, Ei.
  destruct (Ca it eq_refl) as (_ & K). destruct (kept_next t ls it So (K V)) as (it' & ok & (N & HN) & Ok1). destruct ok.
  - destruct (Ok1 eq_refl) as (Nl & P & V' & K'). exists (mkTree (root t) (size t) (version t) (Some it')). split; [|split; [|reflexivity]].
    + exists N. intros fuel Lf. unfold at_cached. rewrite Rt, Ec, Hit, (HN fuel Lf). cbn [bind]. rewrite Ei. destruct (Z.ltb_spec (itIdx it + 1) 0); [lia|]. now rewrite Nl.
    + apply Mk. intros it2 E2. injection E2 as <-. split; [lia|auto].
  - exists ts. split; [|auto]. exists (N + Ns)%nat. intros fuel Lf. unfold at_cached. rewrite Rt, Ec, Hit, (HN fuel) by lia. cbn [bind].
    apply HNs. lia.
Qed.

Lemma at_det : forall i t t1 l1 t2 l2, AtGives i t t1 l1 -> AtGives i t t2 l2 -> t1 = t2 /\ l1 = l2.
Proof.
  intros i t t1 l1 t2 l2 (N1 & H1) (N2 & H2). specialize (H1 (N1 + N2)%nat ltac:(lia)). specialize (H2 (N1 + N2)%nat ltac:(lia)). rewrite H1 in H2. now inversion H2.
Qed.

Lemma clash_apart : forall a b, ~ clash a b -> Apart a b.
Proof.
  intros a b H. right. split; intros (r & E); apply H; exists r; unfold term in E; rewrite <- app_assoc in E; cbn in E; [left|right]; exact E.
Qed.

Lemma insert_inv : forall n t ls k v, Inv n t ls -> Forall isByte k -> (forall e, In e (map asEntry ls) -> ~ clash k (fst e)) ->
  exists t', insertLeaf (mkLeaf n k v) t = Ok (t', lhas k ls) /\ Inv (n + 1) t' (lput (mkLeaf n k v) ls).
Proof.
  intros n t ls k v [Sh Id Ca] Bk Cl. pose proof Sh as (R & Sz). unfold insertLeaf.
  assert (Ids : Forall (fun l => lId l < n + 1) (lput (mkLeaf n k v) ls)).
  { clear -Id. induction Id as [|l ls H F IH]; cbn; [repeat constructor; cbn; lia|]. assert (F' : Forall (fun l => lId l < n + 1) ls) by (eapply Forall_impl; [|exact F]; cbn; lia).
    destruct (bcmp k (lKey l)); repeat constructor; cbn; try lia; auto. }
  assert (Old : forall b' z, forall it, atCache (mkTree b' z (version t + 1) (atCache t)) = Some it -> itVersion it <= version t + 1 /\ (itVersion it = version t + 1 -> Kept (mkTree b' z (version t + 1) (atCache t)) (lput (mkLeaf n k v) ls) it)).
  { intros b' z it E. cbn in E. destruct (Ca it E) as (L & _). split; [lia|]. intros H. lia. }
  destruct (root t) as [b|].
  - destruct (insert_spec (mkLeaf n k v) Bk [] b ls R) as (b' & Ei & W & _).
    + now exists (term k).
    + apply Forall_forall. intros l Hl. cbn. apply clash_apart. apply (Cl (asEntry l)). now apply in_map.
    + eapply Forall_impl; [|exact Id]. cbn. lia.
    + cbn [length lKey] in Ei. rewrite Ei. cbn [bind]. eexists. split; [reflexivity|]. split; [|exact Ids|apply Old].
      split; [exact W|]. cbn [size]. rewrite lput_length by exact (shape_sorted _ _ Sh). cbn [lKey]. destruct (lhas k ls); lia.
  - subst ls. eexists. split; [reflexivity|]. split; [|exact Ids|apply Old]. split; [|cbn in *; lia]. cbn. apply Wf_leaf; [now exists (term k)|exact Bk].
Qed.

Lemma remove_inv : forall n t ls k, Inv n t ls -> Forall isByte k ->
  exists t', remove k t = Ok (t', option_map fst (lget k ls)) /\ Inv n t' (ldel k ls).
Proof.
  intros n t ls k [Sh Id Ca] Bk. pose proof (shape_sorted _ _ Sh) as So. pose proof Sh as (R & Sz). unfold remove.
  assert (Ids : Forall (fun l => lId l < n) (ldel k ls)) by (unfold ldel; apply Forall_forall; intros l Hl; apply filter_In in Hl as (Hl & _); rewrite Forall_forall in Id; auto).
  assert (Old : forall b' z, forall it, atCache (mkTree b' z (version t + 1) (atCache t)) = Some it -> itVersion it <= version t + 1 /\ (itVersion it = version t + 1 -> Kept (mkTree b' z (version t + 1) (atCache t)) (ldel k ls) it)).
  { intros b' z it E. cbn in E. destruct (Ca it E) as (L & _). split; [lia|]. intros H. lia. }
  pose proof (ldel_length k ls So) as Len. destruct (root t) as [b|] eqn:Rt.
  - pose proof (del_spec k Bk [] b ls R) as D. unfold Deleted in D. destruct (lget k ls) as [[l i]|] eqn:G.
    + assert (Hn : (1 <= length ls)%nat) by (apply lget_some in G as (G & _); destruct ls; [destruct i; discriminate|cbn; lia]).
      destruct b as [pr l0|pr comp ok sub nd].
      * cbn [length] in D. rewrite D. cbn [bind]. eexists. split; [reflexivity|]. split; [|exact Ids|apply Old]. inversion R; subst. split; cbn [root size]; [|rewrite Len; cbn in Sz |- *; lia].
        destruct (ldel k [l0]) eqn:E0; [reflexivity|discriminate].
      * destruct D as (b' & D & W). cbn [length] in D. rewrite D. cbn [bind]. eexists. split; [reflexivity|]. split; [|exact Ids|apply Old]. split; [exact W|]. cbn [size]. lia.
    + cbn [length] in D. rewrite D. cbn [bind]. exists t. split; [reflexivity|]. rewrite ldel_none by now apply lget_none. split; auto.
  - subst ls. exists t. split; [reflexivity|]. split; auto.
Qed.

Lemma read_inv : forall n t ls b b', Inv n t ls -> root t = Some b -> refresh b b' -> Inv n (mkTree (Some b') (size t) (version t) (atCache t)) ls.
Proof.
  intros n t ls b b' [Sh Id Ca] Rt Rf. pose proof Sh as (R & Sz). rewrite Rt in R. destruct (refresh_spec _ _ Rf _ _ R) as (W & _).
  split; [split; [exact W|exact Sz]|exact Id|]. cbn [atCache version]. intros it E. destruct (Ca it E) as (L & K). split; [exact L|]. intros V. destruct (K V) as [C|(Er & pre & rem & El & Lf & Ix & F)]; [now left|].
  right. split; [exact Er|]. exists pre, rem. split; [exact El|]. split; [|split; assumption].
  destruct Lf as (C & V0 & b0 & ls0 & Rt0 & W0 & D). split; [exact C|]. split; [exact V0|]. exists b', ls0. split; [reflexivity|]. split; [|exact D].
  rewrite Rt in Rt0. injection Rt0 as <-. now destruct (refresh_spec _ _ Rf _ _ W0).
Qed.

Lemma hist_inv : forall n t m, Hist n t m -> exists ls, m = map asEntry ls /\ Inv n t ls.
Proof.
  induction 1 as [|n t m k v t' u H (ls & -> & I) Bk Cl E|n t m k t' l H (ls & -> & I) Bk E|n t m b b' H (ls & -> & I) Rt Rf|n t m i t' l H (ls & -> & I) A].
  - exists []. split; [reflexivity|]. split; [split; reflexivity|constructor|discriminate].
  - destruct (insert_inv n t ls k v I Bk Cl) as (t2 & E2 & I2). rewrite E in E2. injection E2 as -> _. eexists. split; [apply (put_lput n)|exact I2].
  - destruct (remove_inv n t ls k I Bk) as (t2 & E2 & I2). rewrite E in E2. injection E2 as -> _. eexists. split; [apply drop_ldel|exact I2].
  - exists ls. split; [reflexivity|]. eapply read_inv; eauto.
  - destruct (at_inv n t ls i I) as (t2 & A2 & I2 & _). destruct (at_det _ _ _ _ _ _ A A2) as (-> & _). eauto.
Qed.

Lemma drains_drained : forall t it out, Drains t it out -> Drained t it (map showAt out).
Proof. induction 1 as [it it' N|it it' l out N L D IH]; cbn [map]; [econstructor; exact N|]. unfold showAt at 1. cbn [fst snd]. econstructor; eauto. Qed.
Lemma drained_det : forall t it out1, Drained t it out1 -> forall out2, Drained t it out2 -> out1 = out2.
Proof.
  induction 1 as [it it' N|it it' l out N L D IH]; intros out2 D2; inversion D2 as [? ? N2|? ? ? ? N2 L2 D2']; subst.
  - reflexivity.
  - now destruct (next_det _ _ _ _ _ _ N N2).
  - now destruct (next_det _ _ _ _ _ _ N N2).
  - destruct (next_det _ _ _ _ _ _ N N2) as (-> & _). rewrite L in L2. injection L2 as ->. f_equal. auto.
Qed.
