(** * Circuits: every direction of every circuit is a pipeline *)

From Coq Require Import ZArith List Bool Arith Lia.
From Verif Require Import Ckt_Model Ckt_Spec Ckt_View.
Import ListNotations.

(** ** Lists *)

Lemma upd_len : forall (A : Type) i (f : A -> A) l, length (upd i f l) = length l.
Proof. intros A i f l. revert i. induction l as [|x l IH]; intros [|i]; cbn; auto. Qed.

Lemma upd_nth : forall (A : Type) j (f : A -> A) l i d,
  nth i (upd j f l) d = if (i =? j) && (j <? length l) then f (nth i l d) else nth i l d.
Proof.
  intros A j f l. revert j. induction l as [|x l IH]; intros [|j] [|i] d; cbn; auto.
  - rewrite andb_false_r. reflexivity.
  - rewrite IH. destruct (i =? j); cbn; auto.
Qed.

Lemma remAt_in : forall (A : Type) i (l : list A) x, In x (remAt i l) -> In x l.
Proof. intros A i l. revert i. induction l as [|y l IH]; intros [|i] x; cbn; auto. intros [H|H]; eauto. Qed.

Lemma memN_in : forall c l, memN c l = true <-> In c l.
Proof.
  intros c l. unfold memN. rewrite existsb_exists. split.
  - intros [x [H E]]. apply Nat.eqb_eq in E. subst. exact H.
  - intro H. exists c. split; [exact H|apply Nat.eqb_refl].
Qed.

Lemma delN_in : forall c a l, In a (delN c l) <-> In a l /\ a <> c.
Proof.
  intros c a l. unfold delN. rewrite filter_In, negb_true_iff, Nat.eqb_neq. split; intros [H1 H2]; split; auto.
Qed.

Lemma same_spec : forall c c' x x', same c c' x x' = true <-> c = c' /\ x = x'.
Proof.
  intros. unfold same. rewrite andb_true_iff, Nat.eqb_eq, eqb_true_iff. reflexivity.
Qed.

Lemma same_refl : forall c x, same c c x x = true.
Proof. intros. apply same_spec. auto. Qed.

(** ** The view of a direction *)

Definition itemOf (k : bool) (m : msg) : list item :=
  match mTyp m with
  | TStart | TTraffic => if k then [] else [Some (mData m)]
  | TErr => if k then [Some (mData m)] else []
  | TEnd => if k then [] else [None]
  end.

Definition isFor (c p : nat) (m : msg) : bool := (mCid m =? c) && (mTo m =? p).

Definition items (k : bool) (c p : nat) (l : list msg) : list item :=
  flat_map (fun m => if isFor c p m then itemOf k m else []) l.

Lemma items_app : forall k c p a b, items k c p (a ++ b) = items k c p a ++ items k c p b.
Proof. intros. unfold items. apply flat_map_app. Qed.

Fixpoint sentI (c : nat) (x k : bool) (h : list event) : list item :=
  match h with
  | [] => []
  | ESent c' x' k' d :: r =>
      if same c c' x x' && Bool.eqb k k' then sentI c x k r ++ [Some d] else sentI c x k r
  | EFin c' x' :: r =>
      if same c c' x x' && negb k then sentI c x k r ++ [None] else sentI c x k r
  | _ :: r => sentI c x k r
  end.

Definition isGap (c : nat) (x : bool) (e : event) : bool :=
  match e with EGap c' x' => same c c' x x' | _ => false end.
Definition isEnded (c : nat) (x : bool) (e : event) : bool :=
  match e with EClosed _ c' x' true => same c c' x x' | _ => false end.

Definition inPump (k : bool) (c : nat) (a : phase) : list item :=
  match a with
  | Deliv c' d _ => if negb k && (c' =? c) then [Some d] else []
  | DelivErr c' d => if k && (c' =? c) then [Some d] else []
  | _ => []
  end.

Definition inBoot (x k : bool) (c : nat) (b : option (nat * Z)) : list item :=
  match b with
  | Some (c', d) => if negb x && negb k && (c' =? c) then [Some d] else []
  | None => []
  end.

Definition inQ (k : bool) (a : peer) : list msg := if k then pErrs a else pReads a.

Definition view (s : state) (c : nat) (x k : bool) : Ckt_View.view :=
  let ck := getC c s in
  let p := peerOf x ck in
  let a := getP p s in
  mkV (map Some (recv c x k (hist s) ++ queue k (endOf x ck)))
      (inPump k c (pPump a))
      (items k c p (inQ k a))
      (inBoot x k c (boot (pSide a) s))
      (items k c p (wire (pSide a) s))
      (sentI c (negb x) k (hist s))
      (eCanc (endOf x ck)) (existsb (isGap c x) (hist s)) (connUp s)
      (negb k && existsb (isEnded c x) (hist s)).

(** ** Getting at parts *)

Lemma getP_updP : forall p q f s,
  getP p (updP q f s) = if (p =? q) && (q <? length (peers s)) then f (getP p s) else getP p s.
Proof. intros. unfold getP, updP. cbn. apply upd_nth. Qed.

Lemma getC_updC : forall c d f s,
  getC c (updC d f s) = if (c =? d) && (d <? length (ckts s)) then f (getC c s) else getC c s.
Proof. intros. unfold getC, updC. cbn. apply upd_nth. Qed.

Lemma getC_updP : forall c q f s, getC c (updP q f s) = getC c s.
Proof. reflexivity. Qed.
Lemma getP_updC : forall p c f s, getP p (updC c f s) = getP p s.
Proof. reflexivity. Qed.

Lemma wire_setWire : forall t t' v s, wire t (setWire t' v s) = if Bool.eqb t t' then v else wire t s.
Proof. intros [] [] v s; reflexivity. Qed.
Lemma boot_setBoot : forall t t' v s, boot t (setBoot t' v s) = if Bool.eqb t t' then v else boot t s.
Proof. intros [] [] v s; reflexivity. Qed.

Lemma getP_setWire : forall p t v s, getP p (setWire t v s) = getP p s.
Proof. reflexivity. Qed.
Lemma getC_setWire : forall c t v s, getC c (setWire t v s) = getC c s.
Proof. reflexivity. Qed.

Lemma endOf_setEnd : forall x y f k, endOf x (setEnd y f k) = if Bool.eqb x y then f (endOf x k) else endOf x k.
Proof. intros [] [] f k; reflexivity. Qed.
Lemma peerOf_setEnd : forall x y f k, peerOf x (setEnd y f k) = peerOf x k.
Proof. intros [] [] f k; reflexivity. Qed.

(** ** The invariant of the rest of the state *)

Definition badStart (c : nat) (m : msg) : bool :=
  (mCid m =? c) && match mTyp m with TStart => true | _ => false end.

(** the messages of a direction that carry an item of k = false. *)
Definition forB (c p : nat) (l : list msg) : list msg :=
  filter (fun m => isFor c p m && match mTyp m with TErr => false | _ => true end) l.

Definition statics (s : state) : Prop := forall c, c < length (ckts s) ->
  kFrom (getC c s) < length (peers s) /\ kTo (getC c s) < length (peers s) /\
  pSide (getP (kFrom (getC c s)) s) <> pSide (getP (kTo (getC c s)) s).

Record sinv (s : state) : Prop := mkSinv {
  iStatic : statics s;
  iMap : forall p c, In c (pMap (getP p s)) ->
    c < length (ckts s) /\ p < length (peers s) /\
    (p = kFrom (getC c s) \/ p = kTo (getC c s)) /\
    eLive (endOf (endAt p (getC c s)) (getC c s)) = true /\
    eTold (endOf (endAt p (getC c s)) (getC c s)) = true /\
    eCanc (endOf (endAt p (getC c s)) (getC c s)) = false;
  iMapND : forall p, NoDup (pMap (getP p s));
  iDeliv : forall p, match pPump (getP p s) with
                     | Deliv c _ _ | DelivErr c _ => In c (pMap (getP p s))
                     | _ => True end;
  iWire : forall t m, In m (wire t s) ->
    mCid m < length (ckts s) /\ pSide (getP (mTo m) s) = t /\
    (mTo m = kFrom (getC (mCid m) s) \/ mTo m = kTo (getC (mCid m) s)) /\
    (mTyp m = TStart -> mTo m = kTo (getC (mCid m) s));
  iIn : forall p k m, In m (inQ k (getP p s)) ->
    mCid m < length (ckts s) /\ mTo m = p /\
    (p = kFrom (getC (mCid m) s) \/ p = kTo (getC (mCid m) s)) /\
    match mTyp m with TStart => False | TErr => k = true | _ => k = false end;
  iBoot : forall t c d, boot t s = Some (c, d) ->
    c < length (ckts s) /\ pSide (getP (kTo (getC c s)) s) = t /\ eLive (kB (getC c s)) = true;
  iSends : forall c x k d, In (c, x, k, d) (sends s) ->
    c < length (ckts s) /\ kStarted (getC c s) = true;
  iBg : forall c x r, In (c, x, r) (bg s) ->
    c < length (ckts s) /\ eCanc (endOf x (getC c s)) = true;
  iDown : connUp s = false -> wire true s = [] /\ wire false s = [] /\ bg s = [];
  iTold : forall c x, eCanc (endOf x (getC c s)) = true -> eTold (endOf x (getC c s)) = true;
  iLiveA : forall c, c < length (ckts s) -> eLive (kA (getC c s)) = true;
  iNoB : forall c, eLive (kB (getC c s)) = false -> kB (getC c s) = noEnd;
  iLiveSt : forall c, eLive (kB (getC c s)) = true -> kStarted (getC c s) = true;
  iNoStart : forall c t, kStarted (getC c s) = false \/ eLive (kB (getC c s)) = true ->
    existsb (badStart c) (wire t s) = false;
  iStart : forall c, kStarted (getC c s) = true -> eLive (kB (getC c s)) = false -> connUp s = true ->
    let q := kTo (getC c s) in
    items false c q (inQ false (getP q s)) = [] /\
    match forB c q (wire (pSide (getP q s)) s) with
    | m :: r => mTyp m = TStart /\ existsb (badStart c) r = false
    | [] => False
    end;
  iPre : forall c, kStarted (getC c s) = false -> eCanc (kA (getC c s)) = false ->
    sentI c true false (hist s) = [];
  iHist : forall c x k, length (ckts s) <= c ->
    sentI c x k (hist s) = [] /\ recv c x k (hist s) = [] /\
    existsb (isGap c x) (hist s) = false /\ existsb (isEnded c x) (hist s) = false }.

Lemma peers_apart : forall s c x, statics s -> c < length (ckts s) ->
  peerOf x (getC c s) <> peerOf (negb x) (getC c s) /\
  pSide (getP (peerOf (negb x) (getC c s)) s) = negb (pSide (getP (peerOf x (getC c s)) s)).
Proof.
  intros s c x S H. destruct (S c H) as (_ & _ & N).
  destruct x; cbn [peerOf negb].
  - split; [intro Q; apply N; rewrite Q; reflexivity|].
    destruct (pSide (getP (kFrom (getC c s)) s)), (pSide (getP (kTo (getC c s)) s)); auto; congruence.
  - split; [intro Q; apply N; rewrite Q; reflexivity|].
    destruct (pSide (getP (kFrom (getC c s)) s)), (pSide (getP (kTo (getC c s)) s)); auto; congruence.
Qed.

Lemma peer_lt : forall s c x, statics s -> c < length (ckts s) -> peerOf x (getC c s) < length (peers s).
Proof. intros s c x S H. destruct (S c H) as (A & B & _). destruct x; assumption. Qed.

Lemma endAt_peerOf : forall s c x, statics s -> c < length (ckts s) -> endAt (peerOf x (getC c s)) (getC c s) = x.
Proof.
  intros s c x S H. destruct (peers_apart s c x S H) as [N _]. unfold endAt. destruct x; cbn in *.
  - apply Nat.eqb_refl.
  - apply Nat.eqb_neq. congruence.
Qed.

Lemma peerOf_endAt : forall p k, p = kFrom k \/ p = kTo k -> peerOf (endAt p k) k = p.
Proof.
  intros p k H. unfold endAt. destruct (Nat.eqb_spec (kFrom k) p) as [E|E]; cbn; [exact E|].
  destruct H; congruence.
Qed.

(** ** Handing a message to the connection *)

Definition putEv (c : nat) (x : bool) (t : mtyp) (d : Z) : event :=
  match t with
  | TStart | TTraffic => ESent c x false d
  | TErr => ESent c x true d
  | TEnd => EFin c x
  end.

Definition putLog (c : nat) (x : bool) (t : mtyp) (d : Z) (s : state) : state :=
  log (putEv c x t d) (put c x t d s).

Lemma sentI_putEv : forall c x k c0 x0 t d h,
  sentI c x k (putEv c0 x0 t d :: h) =
  sentI c x k h ++ (if same c c0 x x0 then itemOf k (mkMsg t 0 c0 d) else []).
Proof.
  intros. destruct t; cbn [putEv sentI itemOf mTyp mData]; destruct (same c c0 x x0), k; cbn [Bool.eqb negb andb];
    rewrite ?app_nil_r; reflexivity.
Qed.

Lemma putLog_view : forall s c0 x0 t d, statics s -> c0 < length (ckts s) -> connUp s = true ->
  forall c x k, vsteps (view s c x k) (view (putLog c0 x0 t d s) c x k).
Proof.
  intros s c0 x0 t d S L U c x k. unfold putLog, put.
  set (side := negb (pSide (getP (peerOf x0 (getC c0 s)) s))).
  set (m := mkMsg t (peerOf (negb x0) (getC c0 s)) c0 d).
  unfold view. cbn [log hist connUp].
  change (getC c (log _ (setWire side (wire side s ++ [m]) s))) with (getC c s).
  change (getP (peerOf x (getC c s)) (log _ (setWire side (wire side s ++ [m]) s))) with (getP (peerOf x (getC c s)) s).
  change (boot (pSide (getP (peerOf x (getC c s)) s)) (log _ (setWire side (wire side s ++ [m]) s)))
    with (boot (pSide (getP (peerOf x (getC c s)) s)) s).
  change (wire (pSide (getP (peerOf x (getC c s)) s)) (log _ (setWire side (wire side s ++ [m]) s)))
    with (wire (pSide (getP (peerOf x (getC c s)) s)) (setWire side (wire side s ++ [m]) s)).
  change (hist (setWire side (wire side s ++ [m]) s)) with (hist s).
  rewrite sentI_putEv.
  assert (R : recv c x k (putEv c0 x0 t d :: hist s) = recv c x k (hist s)) by (destruct t; reflexivity).
  assert (G : existsb (isGap c x) (putEv c0 x0 t d :: hist s) = existsb (isGap c x) (hist s)) by (destruct t; reflexivity).
  assert (N : existsb (isEnded c x) (putEv c0 x0 t d :: hist s) = existsb (isEnded c x) (hist s)) by (destruct t; reflexivity).
  rewrite R, G, N. clear R G N.
  change (connUp (setWire side (wire side s ++ [m]) s)) with (connUp s). rewrite U.
  assert (W : items k c (peerOf x (getC c s)) (wire (pSide (getP (peerOf x (getC c s)) s)) (setWire side (wire side s ++ [m]) s))
            = items k c (peerOf x (getC c s)) (wire (pSide (getP (peerOf x (getC c s)) s)) s)
              ++ (if same c c0 (negb x) x0 then itemOf k (mkMsg t 0 c0 d) else [])).
  { rewrite wire_setWire.
    destruct (same c c0 (negb x) x0) eqn:Q.
    - apply same_spec in Q as [-> <-]. destruct (peers_apart s c0 x S L) as [_ P].
      assert (E : pSide (getP (peerOf x (getC c0 s)) s) = side).
      { unfold side. rewrite P, negb_involutive. reflexivity. }
      rewrite E, eqb_reflx, items_app. f_equal. unfold m. rewrite negb_involutive. unfold items. cbn [flat_map isFor mCid mTo].
      unfold isFor. cbn [mCid mTo]. rewrite !Nat.eqb_refl. cbn [andb]. rewrite app_nil_r. destruct t; reflexivity.
    - rewrite app_nil_r. destruct (Bool.eqb _ side) eqn:Q2; [|reflexivity].
      apply eqb_prop in Q2. rewrite Q2, items_app.
      assert (Z : items k c (peerOf x (getC c s)) [m] = []); [|rewrite Z, app_nil_r; reflexivity].
      unfold items. cbn [flat_map]. unfold isFor, m. cbn [mCid mTo].
      destruct (Nat.eqb_spec c0 c) as [E|E]; [|reflexivity]. subst c0.
      assert (X : x0 = x). { unfold same in Q. rewrite Nat.eqb_refl in Q. destruct x, x0; cbn in Q; congruence. }
      subst x0. destruct (peers_apart s c x S L) as [P _].
      destruct (Nat.eqb_spec (peerOf (negb x) (getC c s)) (peerOf x (getC c s))) as [E|E]; [congruence|]. reflexivity. }
  rewrite W. clear W.
  destruct (same c c0 (negb x) x0); [|rewrite !app_nil_r; apply vs_refl].
  unfold itemOf. cbn [mTyp mData].
  destruct t, k; rewrite ?app_nil_r; first [apply vs_refl | apply vs_one; apply v_append].
Qed.

(** ** What keeps the invariant *)

Lemma fldP : forall (B : Type) (g : peer -> B) p q f s,
  (forall a, g (f a) = g a) -> g (getP p (updP q f s)) = g (getP p s).
Proof. intros B g p q f s H. rewrite getP_updP. destruct (_ && _); auto. Qed.

Lemma fldC : forall (B : Type) (g : ckt -> B) c d f s,
  (forall a, g (f a) = g a) -> g (getC c (updC d f s)) = g (getC c s).
Proof. intros B g c d f s H. rewrite getC_updC. destruct (_ && _); auto. Qed.

Lemma ckts_len_updC : forall c f s, length (ckts (updC c f s)) = length (ckts s).
Proof. intros. unfold updC. cbn. apply upd_len. Qed.
Lemma peers_len_updP : forall c f s, length (peers (updP c f s)) = length (peers s).
Proof. intros. unfold updP. cbn. apply upd_len. Qed.

(** a change of a peer that takes things away only. *)
Lemma sinv_updP : forall p f s, sinv s ->
  (forall a, pSide (f a) = pSide a) ->
  (forall c, In c (pMap (f (getP p s))) -> In c (pMap (getP p s))) ->
  NoDup (pMap (f (getP p s))) ->
  match pPump (f (getP p s)) with
  | Deliv c _ _ | DelivErr c _ => In c (pMap (f (getP p s)))
  | _ => True end ->
  (forall k m, In m (inQ k (f (getP p s))) -> In m (inQ k (getP p s))) ->
  (forall c q, items false c q (inQ false (getP p s)) = [] -> items false c q (inQ false (f (getP p s))) = []) ->
  sinv (updP p f s).
Proof.
  intros p f s S Hs Hm Hn Hp Hq Hi.
  assert (SD : forall q, pSide (getP q (updP p f s)) = pSide (getP q s)) by (intro; apply fldP; exact Hs).
  constructor.
  - intros c L. rewrite !SD, peers_len_updP. exact (iStatic _ S c L).
  - intros q c. rewrite peers_len_updP. rewrite getP_updP.
    destruct ((q =? p) && _) eqn:E; [|apply (iMap _ S)]. apply andb_true_iff in E as [E _].
    apply Nat.eqb_eq in E. subst q. intro H. apply Hm in H. exact (iMap _ S _ _ H).
  - intro q. rewrite getP_updP. destruct ((q =? p) && _) eqn:E; [|apply (iMapND _ S)].
    apply andb_true_iff in E as [E _]. apply Nat.eqb_eq in E. subst q. exact Hn.
  - intro q. rewrite getP_updP. destruct ((q =? p) && _) eqn:E; [|apply (iDeliv _ S)].
    apply andb_true_iff in E as [E _]. apply Nat.eqb_eq in E. subst q. exact Hp.
  - intros t m H. rewrite SD. exact (iWire _ S t m H).
  - intros q k m. rewrite getP_updP. destruct ((q =? p) && _) eqn:E; [|apply (iIn _ S)].
    apply andb_true_iff in E as [E _]. apply Nat.eqb_eq in E. subst q. intro H. apply Hq in H.
    exact (iIn _ S _ _ _ H).
  - intros t c d H. rewrite SD. exact (iBoot _ S t c d H).
  - exact (iSends _ S).
  - exact (iBg _ S).
  - exact (iDown _ S).
  - exact (iTold _ S).
  - exact (iLiveA _ S).
  - exact (iNoB _ S).
  - exact (iLiveSt _ S).
  - exact (iNoStart _ S).
  - intros c A B C. destruct (iStart _ S c A B C) as [Q1 Q2]. cbn zeta. rewrite SD. split; [|exact Q2].
    rewrite getC_updP. rewrite getP_updP. destruct ((_ =? p) && _) eqn:E; [|exact Q1].
    apply andb_true_iff in E as [E _]. apply Nat.eqb_eq in E. rewrite E in *. apply Hi. exact Q1.
  - exact (iPre _ S).
  - exact (iHist _ S).
Qed.

(** a change of a circuit. *)
Lemma sinv_updC : forall c f s, sinv s -> c < length (ckts s) ->
  (forall a, kFrom (f a) = kFrom a /\ kTo (f a) = kTo a /\ kStarted (f a) = kStarted a) ->
  (forall x, eLive (endOf x (f (getC c s))) = eLive (endOf x (getC c s))) ->
  (forall x, eTold (endOf x (getC c s)) = true -> eTold (endOf x (f (getC c s))) = true) ->
  (forall x, eCanc (endOf x (getC c s)) = true -> eCanc (endOf x (f (getC c s))) = true) ->
  (forall x, eCanc (endOf x (f (getC c s))) = true -> eTold (endOf x (f (getC c s))) = true) ->
  (eLive (kB (getC c s)) = false -> kB (f (getC c s)) = kB (getC c s)) ->
  (forall p, In c (pMap (getP p s)) -> eCanc (endOf (endAt p (getC c s)) (f (getC c s))) = false) ->
  sinv (updC c f s).
Proof.
  intros c f s S L Hk Hl Ht Hc Hct Hb Hm.
  assert (K1 : forall d, kFrom (getC d (updC c f s)) = kFrom (getC d s)) by (intro; apply fldC; apply Hk).
  assert (K2 : forall d, kTo (getC d (updC c f s)) = kTo (getC d s)) by (intro; apply fldC; apply Hk).
  assert (K3 : forall d, kStarted (getC d (updC c f s)) = kStarted (getC d s)) by (intro; apply fldC; apply Hk).
  assert (E : forall p k, endAt p (getC k (updC c f s)) = endAt p (getC k s)) by (intros; unfold endAt; rewrite K1; reflexivity).
  assert (LV : forall x d, eLive (endOf x (getC d (updC c f s))) = eLive (endOf x (getC d s))).
  { intros x d. rewrite getC_updC. destruct ((d =? c) && _) eqn:Q; [|reflexivity].
    apply andb_true_iff in Q as [Q _]. apply Nat.eqb_eq in Q. subst d. apply Hl. }
  assert (LVB : forall d, eLive (kB (getC d (updC c f s))) = eLive (kB (getC d s))) by (intro d; exact (LV false d)).
  constructor.
  - intros d. rewrite ckts_len_updC, K1, K2. apply (iStatic _ S).
  - intros p d H. change (getP p (updC c f s)) with (getP p s) in H. change (peers (updC c f s)) with (peers s).
    rewrite ckts_len_updC, K1, K2, E, LV. destruct (iMap _ S p d H) as (A & B & C & D1 & D2 & D3).
    split; [exact A|]. split; [exact B|]. split; [exact C|]. split; [exact D1|].
    rewrite getC_updC. destruct ((d =? c) && _) eqn:Q; [|split; assumption].
    apply andb_true_iff in Q as [Q _]. apply Nat.eqb_eq in Q. subst d. split; [apply Ht; exact D2|apply Hm; exact H].
  - exact (iMapND _ S).
  - exact (iDeliv _ S).
  - intros t m. rewrite ckts_len_updC, K1, K2. exact (iWire _ S t m).
  - intros p k m. rewrite ckts_len_updC, K1, K2. exact (iIn _ S p k m).
  - intros t d z H. rewrite ckts_len_updC, K2, LVB. exact (iBoot _ S t d z H).
  - intros d x k z H. rewrite ckts_len_updC, K3. exact (iSends _ S d x k z H).
  - intros d x r H. rewrite ckts_len_updC. destruct (iBg _ S d x r H) as [A B]. split; [exact A|].
    rewrite getC_updC. destruct ((d =? c) && _) eqn:Q; [|exact B].
    apply andb_true_iff in Q as [Q _]. apply Nat.eqb_eq in Q. subst d. apply Hc. exact B.
  - exact (iDown _ S).
  - intros d x. rewrite getC_updC. destruct ((d =? c) && _) eqn:Q; [|exact (iTold _ S d x)].
    apply andb_true_iff in Q as [Q _]. apply Nat.eqb_eq in Q. subst d. apply Hct.
  - intros d. rewrite ckts_len_updC. intro H. change (kA (getC d (updC c f s))) with (endOf true (getC d (updC c f s))).
    rewrite LV. exact (iLiveA _ S d H).
  - intros d. rewrite LVB. intro H. rewrite getC_updC. destruct ((d =? c) && _) eqn:Q; [|exact (iNoB _ S d H)].
    apply andb_true_iff in Q as [Q _]. apply Nat.eqb_eq in Q. subst d. rewrite (Hb H). exact (iNoB _ S c H).
  - intros d. rewrite LVB, K3. apply (iLiveSt _ S).
  - intros d t. rewrite K3, LVB. exact (iNoStart _ S d t).
  - intros d. rewrite K3, LVB. intros A B C. cbn zeta. rewrite K2. exact (iStart _ S d A B C).
  - intros d. rewrite K3. intros A B. apply (iPre _ S d A). change (kA (getC d s)) with (endOf true (getC d s)).
    destruct (eCanc (endOf true (getC d s))) eqn:Q; [|reflexivity].
    rewrite getC_updC in B. destruct ((d =? c) && _) eqn:Q2.
    + apply andb_true_iff in Q2 as [Q2 _]. apply Nat.eqb_eq in Q2. subst d.
      rewrite <- B. symmetry. exact (Hc true Q).
    + rewrite <- B. symmetry. exact Q.
  - intros d x k. rewrite ckts_len_updC. exact (iHist _ S d x k).
Qed.

(** events that are not about what was sent or received. *)
Definition neutral (s : state) (e : event) : Prop :=
  match e with
  | ESent _ _ _ _ | EFin _ _ => False
  | EGap c _ | EClosed _ c _ _ | ERecv c _ _ _ => c < length (ckts s)
  | _ => True
  end.

Lemma sinv_log : forall e s, sinv s -> neutral s e -> sinv (log e s).
Proof.
  intros e s S N. destruct S. constructor; try assumption.
  - intros c A B. cbn [log hist]. specialize (iPre0 c A B). destruct e; cbn in *; auto; contradiction.
  - intros c x k L. cbn [log hist]. change (ckts (log e s)) with (ckts s) in L.
    destruct (iHist0 c x k L) as (A & B & C & D).
    assert (Q : forall c', c' < length (ckts s) -> (c =? c') = false).
    { intros c' H. apply Nat.eqb_neq. lia. }
    destruct e; cbn in N; cbn [sentI recv existsb isGap isEnded]; try contradiction;
      unfold same; rewrite ?(Q _ N); cbn [andb orb]; auto.
    destruct byEnd; auto.
Qed.

Lemma sinv_setSends : forall v s, sinv s ->
  (forall c x k d, In (c, x, k, d) v -> c < length (ckts s) /\ kStarted (getC c s) = true) ->
  sinv (setSends v s).
Proof. intros v s S H. destruct S. constructor; assumption. Qed.

Lemma sinv_setBg : forall v s, sinv s ->
  (forall c x r, In (c, x, r) v -> c < length (ckts s) /\ eCanc (endOf x (getC c s)) = true) ->
  (connUp s = false -> v = []) ->
  sinv (setBg v s).
Proof.
  intros v s S H H2. destruct S. constructor; try assumption.
  intro D. cbn. destruct (iDown0 D) as (A & B & _). auto.
Qed.

Lemma sinv_down : forall s, sinv s -> sinv (downC s).
Proof.
  intros s S. unfold downC. apply sinv_log; [|exact I]. destruct S. constructor; try assumption.
  - intros t m. destruct t; intros [].
  - intros c x r [].
  - intros _. auto.
  - intros c t _. destruct t; reflexivity.
  - intros c _ _ H. discriminate.
Qed.

Lemma sinv_setBootNone : forall t s, sinv s -> sinv (setBoot t None s).
Proof.
  intros t s S. destruct S. constructor; try assumption.
  intros t' c d H. rewrite boot_setBoot in H. destruct (Bool.eqb t' t); [discriminate|]. exact (iBoot0 _ _ _ H).
Qed.

(** taking a message that is no request for a circuit from the connection. *)
Lemma sinv_pop : forall t m r s, sinv s -> wire t s = m :: r -> mTyp m <> TStart -> sinv (setWire t r s).
Proof.
  intros t m r s S W N. pose proof S as S0. destruct S. constructor; try assumption.
  - intros t' m' H. rewrite wire_setWire in H. destruct (Bool.eqb t' t) eqn:E; [|exact (iWire0 _ _ H)].
    apply eqb_prop in E. subst t'. apply (iWire0 t m'). rewrite W. right. exact H.
  - intro D. change (connUp (setWire t r s)) with (connUp s) in D. destruct (iDown0 D) as (A & B & C).
    rewrite !wire_setWire. destruct t; cbn [Bool.eqb].
    + rewrite W in A. discriminate.
    + rewrite W in B. discriminate.
  - intros c t' H. rewrite wire_setWire. destruct (Bool.eqb t' t) eqn:E; [|exact (iNoStart0 _ _ H)].
    apply eqb_prop in E. subst t'. pose proof (iNoStart0 c t H) as Q. rewrite W in Q. cbn in Q.
    apply orb_false_iff in Q as [_ Q]. exact Q.
  - intros c A B C. destruct (iStart0 c A B C) as [Q1 Q2]. cbn zeta. split; [exact Q1|].
    rewrite wire_setWire. change (getP (kTo (getC c (setWire t r s))) (setWire t r s)) with (getP (kTo (getC c s)) s).
    change (kTo (getC c (setWire t r s))) with (kTo (getC c s)).
    destruct (Bool.eqb _ t) eqn:E; [|exact Q2]. apply eqb_prop in E. rewrite E, W in Q2.
    cbn [forB filter] in Q2. destruct (isFor c _ m && _) eqn:F; [|exact Q2].
    destruct Q2 as [Q2 _]. contradiction.
Qed.

Lemma forB_app : forall c q a b, forB c q (a ++ b) = forB c q a ++ forB c q b.
Proof. intros. apply filter_app. Qed.

(** handing over a message that is no request. *)
Lemma sinv_putLog : forall c x t d s, sinv s -> c < length (ckts s) -> connUp s = true ->
  t <> TStart -> (x = true -> kStarted (getC c s) = false -> eCanc (kA (getC c s)) = true) ->
  sinv (putLog c x t d s).
Proof.
  intros c x t d s S L U N Hp. unfold putLog, put.
  set (side := negb (pSide (getP (peerOf x (getC c s)) s))).
  set (m := mkMsg t (peerOf (negb x) (getC c s)) c d).
  destruct (peers_apart s c x (iStatic _ S) L) as [AP SD].
  assert (BM : forall c', badStart c' m = false).
  { intro c'. unfold badStart, m. cbn [mCid mTyp]. destruct t; try congruence; rewrite ?andb_false_r; reflexivity. }
  pose proof S as S0. destruct S. constructor; try assumption.
  - intros t' m' H. change (wire t' (log (putEv c x t d) (setWire side (wire side s ++ [m]) s)))
      with (wire t' (setWire side (wire side s ++ [m]) s)) in H.
    rewrite wire_setWire in H. destruct (Bool.eqb t' side) eqn:E; [|exact (iWire0 _ _ H)].
    apply eqb_prop in E. subst t'. apply in_app_or in H as [H|[H|[]]]; [exact (iWire0 _ _ H)|]. subst m'.
    change (length (ckts (log (putEv c x t d) (setWire side (wire side s ++ [m]) s)))) with (length (ckts s)).
    change (getP (mTo m) (log (putEv c x t d) (setWire side (wire side s ++ [m]) s))) with (getP (mTo m) s).
    change (getC (mCid m) (log (putEv c x t d) (setWire side (wire side s ++ [m]) s))) with (getC c s).
    cbn [m mCid mTo mTyp]. split; [exact L|]. split; [exact SD|]. split; [|intro; contradiction].
    destruct x; cbn; auto.
  - intro D. change (connUp (log (putEv c x t d) (setWire side (wire side s ++ [m]) s))) with (connUp s) in D. congruence.
  - intros c' t' H. change (wire t' (log (putEv c x t d) (setWire side (wire side s ++ [m]) s)))
      with (wire t' (setWire side (wire side s ++ [m]) s)).
    rewrite wire_setWire. destruct (Bool.eqb t' side) eqn:E; [|exact (iNoStart0 _ _ H)].
    rewrite existsb_app, (iNoStart0 c' side H). cbn. rewrite BM. reflexivity.
  - intros c' A B C. destruct (iStart0 c' A B C) as [Q1 Q2]. cbn zeta. split; [exact Q1|].
    change (getP (kTo (getC c' (log (putEv c x t d) (setWire side (wire side s ++ [m]) s))))
       (log (putEv c x t d) (setWire side (wire side s ++ [m]) s))) with (getP (kTo (getC c' s)) s).
    change (getC c' (log (putEv c x t d) (setWire side (wire side s ++ [m]) s))) with (getC c' s).
    change (wire (pSide (getP (kTo (getC c' s)) s)) (log (putEv c x t d) (setWire side (wire side s ++ [m]) s)))
      with (wire (pSide (getP (kTo (getC c' s)) s)) (setWire side (wire side s ++ [m]) s)).
    rewrite wire_setWire. destruct (Bool.eqb _ side) eqn:E; [|exact Q2]. apply eqb_prop in E. rewrite E in Q2.
    rewrite forB_app. destruct (forB c' _ (wire side s)) as [|m0 r]; [contradiction|]. cbn [app].
    destruct Q2 as [Q2 Q3]. split; [exact Q2|]. rewrite existsb_app, Q3. cbn [orb forB filter].
    destruct (isFor _ _ m && _); cbn; rewrite ?BM; reflexivity.
  - intros c' A B. cbn [log hist]. rewrite sentI_putEv.
    change (hist (setWire side (wire side s ++ [m]) s)) with (hist s). rewrite (iPre0 c' A B).
    destruct (same c' c true x) eqn:E; [|reflexivity]. apply same_spec in E as [-> <-].
    change (eCanc (kA (getC c s)) = false) in B. change (kStarted (getC c s) = false) in A.
    rewrite (Hp eq_refl A) in B. discriminate.
  - intros c' x' k H. change (length (ckts s) <= c') in H. cbn [log hist].
    change (hist (setWire side (wire side s ++ [m]) s)) with (hist s).
    destruct (iHist0 c' x' k H) as (A & B & C & D). rewrite sentI_putEv, A.
    assert (Q : same c' c x' x = false).
    { unfold same. replace (c' =? c) with false; [reflexivity|]. symmetry. apply Nat.eqb_neq. lia. }
    rewrite Q. split; [reflexivity|].
    destruct t; cbn [putEv recv existsb isGap isEnded orb]; auto.
Qed.
