(* The ticket functions, when ticket ids are distinct. *)

From Coq Require Import List Arith Bool Lia.
Import ListNotations.
From Verif Require Import Herm_Spec Herm_Model Herm_Order.

Definition ots (s : nst) : option ts := option_map kTS (hKey s).

Lemma map_filter_nodup {A B} (f : A -> B) p (l : list A) : NoDup (map f l) -> NoDup (map f (filter p l)).
Proof.
  induction l as [|x l IH]; cbn; intros N; [constructor|]. inversion N; subst.
  destruct (p x); cbn; auto. constructor; auto. intros I. apply H1.
  apply in_map_iff in I. destruct I as (y & E & I). apply filter_In in I. rewrite <- E. apply in_map. tauto.
Qed.

Lemma getTicket_some id s t : getTicket id s = Some t -> In t (hPend s) /\ tId t = id.
Proof. unfold getTicket. intros H. apply find_some in H. rewrite Nat.eqb_eq in H. auto. Qed.

Lemma getTicket_none id s : getTicket id s = None <-> ~ In id (map tId (hPend s)).
Proof.
  unfold getTicket. split.
  - intros H I. apply in_map_iff in I. destruct I as (t & E & I).
    pose proof (find_none _ _ H _ I) as Q. cbn in Q. rewrite Nat.eqb_neq in Q. auto.
  - intros H. destruct (find _ _) as [t|] eqn:F; auto. apply find_some in F. rewrite Nat.eqb_eq in F.
    exfalso. apply H. apply in_map_iff. exists t. tauto.
Qed.

Lemma nodup_tid p t t' : NoDup (map tId p) -> In t p -> In t' p -> tId t = tId t' -> t = t'.
Proof.
  induction p as [|x p IH]; cbn; intros N A B E; [destruct A|]. inversion N; subst.
  destruct A as [->|A], B as [->|B]; auto.
  - exfalso. apply H1. rewrite E. now apply in_map.
  - exfalso. apply H1. rewrite <- E. now apply in_map.
Qed.

Lemma getTicket_in id s t : NoDup (map tId (hPend s)) -> In t (hPend s) -> tId t = id -> getTicket id s = Some t.
Proof.
  intros N I E. destruct (getTicket id s) as [t'|] eqn:G.
  - apply getTicket_some in G. f_equal. apply (nodup_tid (hPend s)); auto; tauto || (destruct G; congruence).
  - exfalso. apply getTicket_none in G. apply G. rewrite <- E. now apply in_map.
Qed.

Lemma dropId_in id p t : In t (dropId id p) <-> In t p /\ tId t <> id.
Proof. unfold dropId. rewrite filter_In, negb_true_iff, Nat.eqb_neq. tauto. Qed.

Lemma dropId_nodup id p : NoDup (map tId p) -> NoDup (map tId (dropId id p)).
Proof. apply map_filter_nodup. Qed.

Lemma dropId_notin id p : ~ In id (map tId p) -> dropId id p = p.
Proof.
  induction p as [|x p IH]; cbn; intros H; auto.
  destruct (Nat.eqb_spec (tId x) id) as [E|E]; cbn; [exfalso; auto|]. f_equal. auto.
Qed.

Lemma dropId_app id p q : dropId id (p ++ q) = dropId id p ++ dropId id q.
Proof. apply filter_app. Qed.

Lemma dropId_mid p t q : NoDup (map tId (p ++ t :: q)) -> dropId (tId t) (p ++ t :: q) = p ++ q.
Proof.
  intros N. rewrite map_app in N. cbn in N. apply NoDup_remove in N. destruct N as [_ N].
  rewrite in_app_iff in N.
  rewrite dropId_app. unfold dropId at 2. cbn [filter]. rewrite Nat.eqb_refl. cbn [negb].
  fold (dropId (tId t) q). rewrite !dropId_notin; auto.
Qed.

Definition rdone (k : keym) (t : tkt) : list out :=
  match tOp t with
  | WRITE => []
  | READ => if tPseudo t then [] else [ODone (tId t) READ (TOk (kVal k) (kTS k))]
  end.
Definition rdones (k : keym) (p : list tkt) : list out := flat_map (rdone k) p.

Lemma unblock_fold k : forall q p s, NoDup (map tId (p ++ q)) -> hPend s = filter isWriteT p ++ q ->
  fold_left
    (fun s1 t =>
       match tOp t with
       | WRITE => s1
       | READ => closeDone t (TOk (kVal k) (kTS k)) (setPend (dropId (tId t) (hPend s1)) s1)
       end) q s
  = NS (hKey s) (filter isWriteT (p ++ q)) (hOut s ++ rdones k q).
Proof.
  induction q as [|t q IH]; intros p s N E; cbn [fold_left].
  - rewrite app_nil_r in *. destruct s; cbn in *. now rewrite E, app_nil_r.
  - assert (N' : NoDup (map tId ((p ++ [t]) ++ q))) by (rewrite <- app_assoc; auto).
    destruct (tOp t) eqn:O.
    + assert (E' : dropId (tId t) (hPend s) = filter isWriteT (p ++ [t]) ++ q).
      { rewrite E. rewrite filter_app. cbn. unfold isWriteT at 3. rewrite O. rewrite app_nil_r.
        apply dropId_mid. rewrite map_app in *. cbn in *. apply NoDup_remove in N. destruct N as [N M].
        apply NoDup_Add with (a := tId t) (l := map tId (filter isWriteT p) ++ map tId q).
        - apply Add_app.
        - split.
          + rewrite <- map_app in *. clear - N. rewrite map_app in N.
            induction p as [|x p IHp]; cbn in *; auto. inversion N; subst.
            destruct (isWriteT x); cbn; auto. constructor; auto.
            rewrite map_app, in_app_iff in *. intros [H|H]; apply H1; auto.
            left. apply in_map_iff in H. destruct H as (y & A & B). apply filter_In in B. rewrite <- A. apply in_map; tauto.
          + rewrite in_app_iff in *. intros [H|H]; apply M; auto. left.
            apply in_map_iff in H. destruct H as (y & A & B). apply filter_In in B. rewrite <- A. apply in_map; tauto. }
      rewrite (IH (p ++ [t])); auto.
      * unfold closeDone, rdones. cbn [flat_map]. unfold rdone at 2. rewrite O.
        rewrite <- app_assoc. cbn [app]. destruct (tPseudo t); cbn; auto. now rewrite <- app_assoc.
      * unfold closeDone. destruct (tPseudo t); cbn; auto.
    + rewrite (IH (p ++ [t])); auto.
      * unfold rdones. cbn [flat_map]. unfold rdone at 2. rewrite O. rewrite <- app_assoc. auto.
      * rewrite E, filter_app. cbn. unfold isWriteT at 3. rewrite O. now rewrite <- app_assoc.
Qed.

Lemma unblockReads_eq s k : hKey s = Some k -> NoDup (map tId (hPend s)) ->
  unblockReads s = NS (hKey s) (filter isWriteT (hPend s)) (hOut s ++ rdones k (hPend s)).
Proof.
  intros E N. unfold unblockReads. rewrite E. rewrite (unblock_fold k (hPend s) [] s); auto. now rewrite E.
Qed.

Lemma modTicket_ids id f s : (forall t, tId (f t) = tId t) ->
  map tId (hPend (modTicket id f s)) = map tId (hPend s).
Proof.
  intros F. unfold modTicket; cbn. rewrite map_map. apply map_ext. intros t. destruct (tId t =? id); auto.
Qed.

Lemma modTicket_in id f s t : In t (hPend (modTicket id f s)) <->
  exists u, In u (hPend s) /\ t = if tId u =? id then f u else u.
Proof. unfold modTicket; cbn. rewrite in_map_iff. split; intros (u & A & B); exists u; auto. Qed.

Definition matches (c : cfg) (k : keym) (t : tkt) : bool :=
  match tOp t, tFrom t =? kLast k, tsCompare c (kTS k) (tTS t) with
  | WRITE, true, Eq => true
  | _, _, _ => false
  end.

Lemma release_none c k : forall n i arr s,
  (forall j t, i <= j -> nth_error arr j = Some t -> matches c k t = false) ->
  releaseLoop c k n i arr s = HOk s.
Proof.
  induction n as [|n IH]; intros i arr s H; cbn [releaseLoop]; auto.
  destruct (nth_error arr i) as [t|] eqn:E; auto.
  pose proof (H i t (le_n i) E) as M. unfold matches in M.
  destruct (tOp t), (tFrom t =? kLast k), (tsCompare c (kTS k) (tTS t)); try discriminate M;
    apply IH; intros j u L; apply H; lia.
Qed.

Lemma release_skip c k s : forall pre done n post,
  (forall t, In t pre -> matches c k t = false) ->
  releaseLoop c k (length pre + n) (length done) (done ++ pre ++ post) s =
  releaseLoop c k n (length (done ++ pre)) (done ++ pre ++ post) s.
Proof.
  induction pre as [|t pre IH]; intros dn n post H.
  - cbn. now rewrite app_nil_r.
  - cbn [length plus releaseLoop].
    assert (E : nth_error (dn ++ (t :: pre) ++ post) (length dn) = Some t)
      by (rewrite nth_error_app2, Nat.sub_diag by lia; auto).
    rewrite E. pose proof (H t (or_introl eq_refl)) as M. unfold matches in M.
    specialize (IH (dn ++ [t]) n post (fun u I => H u (or_intror I))).
    replace ((dn ++ [t]) ++ pre ++ post) with (dn ++ (t :: pre) ++ post) in IH by (rewrite <- app_assoc; auto).
    replace (length (dn ++ [t])) with (S (length dn)) in IH by (rewrite app_length; cbn; lia).
    replace ((dn ++ [t]) ++ pre) with (dn ++ t :: pre) in IH by (rewrite <- app_assoc; auto).
    destruct (tOp t), (tFrom t =? kLast k), (tsCompare c (kTS k) (tTS t)); try discriminate M; exact IH.
Qed.

(* at most one ticket matches: it alone is released *)
Lemma release_one c s k pre w post :
  hKey s = Some k -> hPend s = pre ++ w :: post -> NoDup (map tId (hPend s)) ->
  matches c k w = true ->
  (forall t, In t (pre ++ post) -> matches c k t = false) ->
  releaseDiscarded c s = HOk (closeDone w TOverWrit (setPend (pre ++ post) s)).
Proof.
  intros K E N M H. unfold releaseDiscarded. rewrite K. rewrite E.
  replace (length (pre ++ w :: post)) with (length pre + S (length post)) by (rewrite app_length; cbn; lia).
  pose proof (release_skip c k s pre [] (S (length post)) (w :: post)) as RS.
  cbn [app length] in RS. rewrite RS by (intros t I; apply H, in_or_app; auto). clear RS.
  cbn [releaseLoop].
  assert (E1 : nth_error (pre ++ w :: post) (length pre) = Some w)
    by (rewrite nth_error_app2, Nat.sub_diag by lia; auto).
  rewrite E1. unfold matches in M.
  destruct (tOp w) eqn:O; try discriminate M.
  destruct (tFrom w =? kLast k); try discriminate M.
  destruct (tsCompare c (kTS k) (tTS w)); try discriminate M.
  unfold deleteTicket.
  rewrite (getTicket_in (tId w) s w N) by (auto; rewrite E; apply in_or_app; cbn; auto).
  assert (D : dropId (tId w) (hPend s) = pre ++ post)
    by (rewrite E; apply dropId_mid; rewrite <- E; auto).
  cbn [bind]. rewrite D.
  assert (P : hPend (setPend (pre ++ post) s) = pre ++ post) by reflexivity. rewrite P.
  destruct post as [|u post].
  - cbn [length releaseLoop]. reflexivity.
  - apply release_none. intros j t L J.
    rewrite <- app_assoc in J.
    rewrite nth_error_app2 in J by lia.
    assert (In t ((u :: post) ++ skipn (length (pre ++ u :: post)) (pre ++ w :: u :: post))) by (eapply nth_error_In; eauto).
    apply in_app_or in H0. destruct H0 as [H0|H0]; [apply H, in_or_app; auto|].
    apply H. apply in_or_app. right.
    rewrite app_length in H0. cbn [length] in H0.
    rewrite skipn_app in H0. rewrite skipn_all2 in H0 by lia. cbn [app] in H0.
    replace (length pre + S (length post) - length pre) with (S (length post)) in H0 by lia.
    cbn [skipn] in H0.
    assert (exists x, skipn (length post) (u :: post) = x /\ incl x (u :: post)) as (x & X1 & X2).
    { eexists. split; [reflexivity|]. intros y Y. rewrite <- (firstn_skipn (length post) (u :: post)).
      apply in_or_app; auto. }
    rewrite X1 in H0. auto.
Qed.
