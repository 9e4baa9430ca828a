(** Ordered search: the first leaf at or after a key, the last leaf at or before it. *)
From Coq Require Import List ZArith Lia Bool Sorting.Sorted.
From Verif Require Import Base Art_Model Art_Node Art_Node2 Art_Tree Art_Tree2 Art_Tree3.
Import ListNotations.
Open Scope Z_scope.

(** ** Keys and paths *)
Definition Agree (key p : bytes) : Prop := prefix p key \/ prefix key p.

Lemma agree_lt : forall key q e l, Agree key q -> 0 <= e < At key (length q) -> prefix (q ++ [e]) (term l) -> bcmp l key = Lt.
Proof.
  intros key q e l A He P. assert (Hp : prefix q key).
  { destruct A as [A|(r & ->)]; [exact A|]. unfold At in He. rewrite nth_overflow in He by (rewrite app_length; lia). lia. }
  eapply path_lt; [exact P|apply term_At; exact Hp|exact He].
Qed.
Lemma agree_gt : forall key q e l, Bytes key -> Agree key q -> At key (length q) < e -> prefix (q ++ [e]) (term l) -> bcmp key l = Lt.
Proof.
  intros key q e l B A He P. pose proof (At_bytes key (length q) B) as Bk. destruct A as [A|(r & ->)].
  - eapply path_lt; [apply term_At; exact A|exact P|lia].
  - destruct P as (r2 & H). rewrite <- app_assoc in H. cbn in H. apply term_split in H as [(_ & X & _)|(r' & _ & ->)]; [lia|].
    rewrite <- (app_nil_r key) at 1. rewrite <- app_assoc, bcmp_app. destruct r; reflexivity.
Qed.
Lemma agree_step : forall key q, Agree key q -> Agree key (q ++ [At key (length q)]).
Proof.
  intros key q [(r & ->)|(r & ->)].
  - destruct r as [|b r].
    + right. rewrite app_nil_r. now exists [At q (length q)].
    + left. rewrite At_app. exists r. now rewrite <- app_assoc.
  - right. exists (r ++ [At key (length (key ++ r))]). now rewrite app_assoc.
Qed.

Lemma mismatch_None : forall comp rest, mismatch comp rest = None -> prefix comp rest \/ prefix rest comp.
Proof.
  induction comp as [|c comp IH]; intros rest H; [left; now exists rest|]. destruct rest as [|k rest]; [right; now exists (c :: comp)|].
  cbn in H. destruct (Z.eqb_spec c k) as [->|D]; [|discriminate]. destruct (IH _ H) as [(r & ->)|(r & ->)]; [left|right]; now exists r.
Qed.
Lemma mismatch_Some : forall comp rest x, mismatch comp rest = Some x ->
  exists f c k s1 s2, comp = f ++ c :: s1 /\ rest = f ++ k :: s2 /\ x = (c <? k) /\ c <> k.
Proof.
  induction comp as [|c comp IH]; intros rest x H; [discriminate|]. destruct rest as [|k rest]; [discriminate|].
  cbn in H. destruct (Z.eqb_spec c k) as [->|D].
  - destruct (IH _ _ H) as (f & c' & k' & s1 & s2 & -> & -> & E & N). exists (k :: f), c', k', s1, s2. auto.
  - inversion H; subst. exists [], c, k, comp, rest. auto.
Qed.

Lemma check_None : forall key p comp, Agree key p -> checkCompressed comp key (length p) = None -> Agree key (p ++ comp).
Proof.
  intros key p comp [(r & ->)|(r & ->)] H; unfold checkCompressed in H.
  - rewrite skipn_app_at in H. apply mismatch_None in H as [(s & ->)|(s & ->)].
    + left. exists s. now rewrite app_assoc.
    + right. exists s. now rewrite app_assoc.
  - right. exists (r ++ comp). now rewrite app_assoc.
Qed.

Lemma check_Some : forall key p comp x l, Bytes key -> Agree key p -> checkCompressed comp key (length p) = Some x -> prefix (p ++ comp) (term l) -> Bytes l ->
  if x then bcmp l key = Lt else bcmp key l = Lt.
Proof.
  intros key p comp x l B A H (r & Hr) Bl. unfold checkCompressed in H. apply mismatch_Some in H as (f & c & k & s1 & s2 & -> & Hk & -> & N).
  assert (Hp : prefix p key).
  { destruct A as [A|(r0 & ->)]; [exact A|]. rewrite skipn_all2 in Hk by (rewrite app_length; lia). destruct f; discriminate. }
  destruct Hp as (rest & ->). rewrite skipn_app_at in Hk. subst rest.
  assert (P1 : prefix ((p ++ f) ++ [c]) (term l)) by (exists (s1 ++ r); rewrite Hr, <- !app_assoc; reflexivity).
  assert (P2 : prefix ((p ++ f) ++ [k]) (term (p ++ f ++ k :: s2))) by (exists (s2 ++ [0]); unfold term; rewrite <- !app_assoc; reflexivity).
  assert (In : forall q b z, prefix (q ++ [b]) (term z) -> Bytes z -> 0 <= b).
  { intros q b z (rr & E) Bz. apply term_bytes in Bz. rewrite E in Bz. unfold Bytes in Bz. rewrite Forall_forall in Bz. apply (Bz b).
    apply in_or_app. left. apply in_or_app. right. now left. }
  destruct (Z.ltb_spec c k) as [L|L].
  - eapply path_lt; [exact P1|exact P2|]. split; [eapply In; eauto|exact L].
  - eapply path_lt; [exact P2|exact P1|]. split; [eapply In; eauto|lia].
Qed.

Lemma nth_error_mid : forall {A} (l1 : list A) x l2, nth_error (l1 ++ x :: l2) (length l1) = Some x.
Proof. intros. rewrite nth_error_app2, Nat.sub_diag by lia. reflexivity. Qed.

Lemma kids_agree_lt : forall key q es lss, bytesE es -> WfK q es lss -> Agree key q -> Forall (fun e => fst e < At key (length q)) es ->
  Forall (fun l => bcmp (lKey l) key = Lt) (concat lss).
Proof.
  intros key q es lss B W A F. apply Forall_forall. intros l Hl. destruct (WfK_path _ _ _ W _ Hl) as (e & He & P & _).
  unfold bytesE in B. rewrite Forall_forall in F, B. apply (agree_lt key q (fst e)); auto. split; [apply B, He|now apply F].
Qed.
Lemma kids_agree_gt : forall key q es lss, Bytes key -> WfK q es lss -> Agree key q -> Forall (fun e => At key (length q) < fst e) es ->
  Forall (fun l => bcmp key (lKey l) = Lt) (concat lss).
Proof.
  intros key q es lss B W A F. apply Forall_forall. intros l Hl. destruct (WfK_path _ _ _ W _ Hl) as (e & He & P & _).
  rewrite Forall_forall in F. apply (agree_gt key q (fst e)); auto.
Qed.
Lemma kid_agree_lt : forall key q b c ls, Wf (q ++ [b]) c ls -> Agree key q -> 0 <= b < At key (length q) -> Forall (fun l => bcmp (lKey l) key = Lt) ls.
Proof.
  intros key q b c ls W A H. pose proof (proj1 Wf_path _ _ _ W) as F. eapply Forall_impl; [|exact F]. cbn. intros l (P & _). eapply agree_lt; eauto.
Qed.
Lemma kid_agree_gt : forall key q b c ls, Bytes key -> Wf (q ++ [b]) c ls -> Agree key q -> At key (length q) < b -> Forall (fun l => bcmp key (lKey l) = Lt) ls.
Proof.
  intros key q b c ls B W A H. pose proof (proj1 Wf_path _ _ _ W) as F. eapply Forall_impl; [|exact F]. cbn. intros l (P & _). eapply agree_gt; eauto.
Qed.

Section Search.
Variables (strict : bool) (key : bytes).
Hypothesis (Bk : Bytes key) (Ne : key <> []).

(** Not at or after the key (after, when strict); not at or before it. *)
Definition under (l : leaf) : bool := match bcmp (lKey l) key with Lt => true | Eq => strict | Gt => false end.
Definition over (l : leaf) : bool := match bcmp (lKey l) key with Gt => true | Eq => strict | Lt => false end.

Lemma lt_under : forall ls, Forall (fun l => bcmp (lKey l) key = Lt) ls -> Forall (fun l => under l = true) ls.
Proof. intros ls F. eapply Forall_impl; [|exact F]. cbn. unfold under. now intros l ->. Qed.
Lemma gt_over : forall ls, Forall (fun l => bcmp key (lKey l) = Lt) ls -> Forall (fun l => over l = true) ls.
Proof. intros ls F. eapply Forall_impl; [|exact F]. cbn. unfold over. intros l H. now rewrite bcmp_sym, H. Qed.
Lemma gt_not_under : forall l, bcmp key (lKey l) = Lt -> under l = false.
Proof. intros l H. unfold under. now rewrite bcmp_sym, H. Qed.
Lemma lt_not_over : forall l, bcmp (lKey l) key = Lt -> over l = false.
Proof. intros l H. unfold over. now rewrite H. Qed.

(** ** At or after *)
Definition Gfound (ls : list leaf) (v : option leaf) (id : nat) : Prop :=
  exists l1 l r, ls = l1 ++ l :: r /\ v = Some l /\ id = length l1 /\ Forall (fun l => under l = true) l1 /\ under l = false.
Definition Gmissing (ls : list leaf) (d : Z) : Prop :=
  (0 < d /\ Forall (fun l => under l = true) ls) \/ (d < 0 /\ Forall (fun l => bcmp key (lKey l) = Lt) ls).
Definition Gpost (b : bnode) (ls : list leaf) (r : found4) : Prop :=
  let '(v, f, d, id) := r in
  if f : bool then Gfound ls v id \/ (strict = true /\ exists pren l, b = BLeaf pren l /\ v = Some l /\ id = 0%nat /\ lKey l = key)
  else Gmissing ls d.

Lemma leafGet_cases : forall l, leafGet key l =
  match bcmp key (lKey l) with Lt => (Some l, false, -1, 0%nat) | Eq => (Some l, true, 0, 0%nat) | Gt => (Some l, false, 1, 0%nat) end.
Proof. intros l. unfold leafGet, beqb. now destruct (bcmp key (lKey l)). Qed.

Lemma off_gt : forall depth swd p c ls, Wf p c ls -> Forall (fun l => bcmp key (lKey l) = Lt) ls ->
  exists f d, getGTE strict key depth false swd (-1) c = Ok (hd_error ls, f, d, 0%nat) /\ (f = true \/ d < 0) /\ (swd = false -> f = false /\ d = -1).
Proof.
  intros depth swd p c ls W F. pose proof (first_spec _ _ _ W) as HF.
  inversion W as [? pren l P B|? pren comp ok sub nd es lss ? E Lo WK El Es Pr]; subst.
  - cbn [getGTE]. inversion F as [|? ? X _]; subst. rewrite leafGet_cases, X. exists false, (-1). split; [reflexivity|]. split; [right; lia|auto].
  - cbn [getGTE]. destruct swd; [exists true, 0; rewrite HF; split; [reflexivity|split; [now left|discriminate]]|].
    destruct key as [|k0 kr] eqn:Ek; [easy|]. cbn [Z.eqb]. rewrite HF. exists false, (-1). split; [reflexivity|]. split; [right; lia|auto].
Qed.
Lemma off_lt : forall depth p c ls, Wf p c ls -> Forall (fun l => bcmp (lKey l) key = Lt) ls ->
  exists v, getGTE strict key depth false false 1 c = Ok (v, false, 1, 0%nat).
Proof.
  intros depth p c ls W F. inversion W as [? pren l P B|? pren comp ok sub nd es lss ? E Lo WK El Es Pr]; subst.
  - cbn [getGTE]. inversion F as [|? ? X _]; subst. rewrite leafGet_cases, bcmp_sym, X. cbn. eauto.
  - cbn [getGTE]. destruct key as [|k0 kr] eqn:Ek; [easy|]. cbn [Z.eqb]. eexists; reflexivity.
Qed.

Lemma hd_found : forall ls ls1 ls2, ls <> [] -> Forall (fun l => under l = true) ls1 -> Forall (fun l => bcmp key (lKey l) = Lt) ls ->
  Gfound (ls1 ++ ls ++ ls2) (hd_error ls) (length ls1).
Proof.
  intros [|l ls] ls1 ls2 N F1 F; [easy|]. inversion F; subst. exists ls1, l, (ls ++ ls2). cbn. repeat split; auto. now apply gt_not_under.
Qed.

Lemma gte_main : forall p b ls, Wf p b ls -> Agree key p -> forall top,
  exists r, getGTE strict key (length p) top false 0 b = Ok r /\ Gpost b ls r /\
    (top = true -> (match b with BInner _ comp _ _ _ => checkCompressed comp key (length p) <> Some false | _ => False end) ->
     let '(_, f, d, _) := r in f = false -> 0 < d).
Proof.
  apply (Wf_rec (fun p b ls => Agree key p -> forall top,
    exists r, getGTE strict key (length p) top false 0 b = Ok r /\ Gpost b ls r /\
    (top = true -> (match b with BInner _ comp _ _ _ => checkCompressed comp key (length p) <> Some false | _ => False end) ->
     let '(_, f, d, _) := r in f = false -> 0 < d))).
  - intros p pren l P B A top. cbn [getGTE]. exists (leafGet key l). split; [reflexivity|]. split; [|easy].
    rewrite leafGet_cases. destruct (bcmp key (lKey l)) eqn:E.
    + apply bcmp_eq in E. cbn. destruct strict eqn:Es.
      * right. split; [reflexivity|]. exists pren, l. auto.
      * left. exists [], l, []. repeat split; auto. unfold under. now rewrite E, bcmp_refl, Es.
    + right. split; [lia|]. auto.
    + left. split; [lia|]. constructor; [|constructor]. unfold under. now rewrite bcmp_sym, E.
  - intros p pren comp ok sub nd es lss E Lo WK Es Pr IH A top.
    cbn [getGTE]. remember (BInner pren comp ok sub nd) as bb eqn:Ebb.
    assert (W0 : Wf p bb (concat lss)) by (subst bb; eapply Wf_inner; eauto).
    assert (KM : forall (X : res found4) (Y : res found4), (match key with [] => X | _ :: _ => Y end) = Y) by (intros; destruct key; easy).
    rewrite KM. clear KM. cbn [Z.eqb].
    destruct (checkCompressed comp key (length p)) as [x|] eqn:Ck.
    { assert (CS : Forall (fun l => if x then bcmp (lKey l) key = Lt else bcmp key (lKey l) = Lt) (concat lss)).
      { apply Forall_forall. intros l Hl. destruct (WfK_path _ _ _ WK _ Hl) as (e & _ & P & B). apply prefix_app in P. eapply check_Some; eauto. }
      destruct x.
      - eexists. split; [reflexivity|]. split; [|intros _ _ _; lia]. left. split; [lia|]. now apply lt_under.
      - eexists. split; [reflexivity|]. split; [|intros _ X; now contradiction X]. right. split; [lia|]. exact CS. }
    pose proof (check_None _ _ _ A Ck) as Aq. rewrite <- app_length. remember (p ++ comp) as q eqn:Eq.
    pose proof (At_bytes key (length q) Bk) as Bb. pose proof (agree_step _ _ Aq) as As.
    assert (KA : forall es1 lss1, bytesE es1 -> WfK q es1 lss1 -> Forall (fun e => fst e < At key (length q)) es1 -> Forall (fun l => bcmp (lKey l) key = Lt) (concat lss1)).
    { intros. eapply kids_agree_lt; eauto. }
    assert (KB : forall es2 lss2, WfK q es2 lss2 -> Forall (fun e => At key (length q) < fst e) es2 -> Forall (fun l => bcmp key (lKey l) = Lt) (concat lss2)).
    { intros. eapply kids_agree_gt; eauto. }
    assert (KC : forall b c ls, Wf (q ++ [b]) c ls -> 0 <= b < At key (length q) -> Forall (fun l => bcmp (lKey l) key = Lt) ls).
    { intros. eapply kid_agree_lt; eauto. }
    assert (KD : forall b c ls, Wf (q ++ [b]) c ls -> At key (length q) < b -> Forall (fun l => bcmp key (lKey l) = Lt) ls).
    { intros. eapply kid_agree_gt; eauto. }
    remember (At key (length q)) as k eqn:Ekk. clear Ekk.
    assert (PA : forall es1 b c es2 lss1 ls lss2, es = es1 ++ (b, c) :: es2 -> lss = lss1 ++ ls :: lss2 -> length es1 = length lss1 ->
      prenAt bb (idx nd (length es1) b) = Ok (length (concat lss1))).
    { intros es1 b c es2 lss1 ls lss2 -> -> L1. subst bb. eapply prenAt_spec; eauto. rewrite <- Eq. exact WK. }
    pose proof (proj1 (proj2 E)) as BE.
    destruct (byte_cases es k (proj1 E)) as [(es1 & c & es2 & Ee & G1 & G2)|(es1 & es2 & Ee & G1 & G2 & NI)].
    + (* a child with the byte of the key *)
      rewrite Ee in E, WK, BE. destruct (WfK_split1 _ _ _ _ _ _ WK) as (lss1 & ls & lss2 & El & W1 & Wc & W2).
      apply Forall_app in BE as (BE1 & BE2). inversion BE2 as [|? ? Bc BE3]; subst x l.
      pose proof (KA _ _ BE1 W1 G1) as F1. pose proof (KB _ _ W2 G2) as F2.
      rewrite (gte_spec nd k es1 ((k, c) :: es2) E G1) by (constructor; [cbn; lia|]; eapply Forall_impl; [|exact G2]; cbn; intros; lia).
      rewrite (withKid_kid Panic), (kid_at _ _ _ _ _ E).
      assert (byteCmp k k 0 = 0) as -> by (unfold byteCmp; now rewrite Z.compare_refl).
      destruct (IH _ _ _ _ _ _ _ Ee El W1 Wc W2 As false) as ([[[v f] d] id] & Hr & Po & _).
      replace (S (length q)) with (length (q ++ [k])) by (rewrite app_length; cbn; lia). rewrite Hr. unfold bind at 1.
      unfold bind at 1. rewrite (PA _ _ _ _ _ _ _ Ee El (WfK_length _ _ _ W1)).
      rewrite El, concat_app. cbn [concat]. apply lt_under in F1 as U1.
      destruct f; cbn in Po.
      * destruct Po as [(l1 & l & r & -> & -> & -> & Fu & Nu)|(St & pc & lc & -> & -> & -> & Kl)].
        -- (* found below *)
           assert (GF : Gfound (concat lss1 ++ (l1 ++ l :: r) ++ concat lss2) (Some l) (length l1 + length (concat lss1))).
           { exists (concat lss1 ++ l1), l, (r ++ concat lss2). split; [rewrite <- !app_assoc; reflexivity|]. split; [reflexivity|].
             split; [rewrite app_length; lia|]. split; [now apply Forall_app|exact Nu]. }
           destruct strict eqn:Es'; cbn [negb].
           ++ unfold under in Nu. destruct (bcmp (lKey l) key) eqn:Ec; try (rewrite Es' in Nu; discriminate); try discriminate.
              eexists. split; [reflexivity|]. split; [left; exact GF|]. discriminate.
           ++ eexists. split; [reflexivity|]. split; [left; exact GF|]. discriminate.
        -- (* a leaf with the key itself *)
           inversion Wc as [? ? ? Pl Bl|]; subst ls. rewrite St. cbn [negb]. rewrite Kl, bcmp_refl.
           rewrite (next_spec nd k (es1 ++ [(k, BLeaf pc lc)]) es2); [| | |exact G2].
           2: { rewrite <- app_assoc. exact E. }
           2: { apply Forall_app. split; [eapply Forall_impl; [|exact G1]; cbn; intros; lia|]. constructor; [cbn; lia|constructor]. }
           assert (Ul : under lc = true) by (unfold under; rewrite Kl, bcmp_refl; exact St).
           destruct es2 as [|[b2 c2] es2].
           ++ eexists. split; [reflexivity|]. split; [|intros _ _ _; lia]. left. split; [lia|]. inversion W2; subst lss2. cbn. apply Forall_app. split; [exact U1|]. repeat constructor. exact Ul.
           ++ inversion W2 as [|? ? ? ? ls2 lss2' Wc2 Wr2]; subst lss2. 
              assert (Ee2 : es = (es1 ++ [(k, BLeaf pc lc)]) ++ (b2, c2) :: es2) by (rewrite <- app_assoc; exact Ee).
              rewrite (PA _ _ _ _ (lss1 ++ [[lc]]) ls2 lss2' Ee2); [|rewrite <- app_assoc; exact El|rewrite !app_length; cbn; rewrite (WfK_length _ _ _ W1); reflexivity].
              unfold bind. rewrite withKid_kid. rewrite <- Ee2 in E || idtac.
              assert (E2 : Ents nd ((es1 ++ [(k, BLeaf pc lc)]) ++ (b2, c2) :: es2)) by (rewrite <- app_assoc; rewrite Ee in E || idtac; exact E).
              rewrite (kid_at _ _ _ _ _ E2). rewrite (first_spec _ _ _ Wc2).
              eexists. split; [reflexivity|]. split; [|discriminate]. left. cbn [concat].
              replace (concat lss1 ++ [lc] ++ ls2 ++ concat lss2') with (concat (lss1 ++ [[lc]]) ++ ls2 ++ concat lss2') by (rewrite concat_app; cbn; rewrite <- !app_assoc; reflexivity).
              apply hd_found.
              ** apply (Wf_ne _ _ _ Wc2).
              ** rewrite concat_app. apply Forall_app. split; [exact U1|]. cbn. repeat constructor. exact Ul.
              ** cbn in F2. apply Forall_app in F2. apply F2.
      * (* nothing below *)
        destruct Po as [(Hd & Fu)|(Hd & Fg)].
        -- destruct (Z.ltb_spec 0 d) as [_|X]; [|lia].
           rewrite (next_spec nd k (es1 ++ [(k, c)]) es2); [| | |exact G2].
           2: { rewrite <- app_assoc. exact E. }
           2: { apply Forall_app. split; [eapply Forall_impl; [|exact G1]; cbn; intros; lia|]. constructor; [cbn; lia|constructor]. }
           destruct es2 as [|[b2 c2] es2].
           ++ eexists. split; [reflexivity|]. split; [|intros _ _ _; lia]. left. split; [lia|]. inversion W2; subst lss2. cbn. rewrite app_nil_r. apply Forall_app. split; [exact U1|exact Fu].
           ++ inversion W2 as [|? ? ? ? ls2 lss2' Wc2 Wr2]; subst lss2.
              assert (Ee2 : es = (es1 ++ [(k, c)]) ++ (b2, c2) :: es2) by (rewrite <- app_assoc; exact Ee).
              assert (E2 : Ents nd ((es1 ++ [(k, c)]) ++ (b2, c2) :: es2)) by (rewrite <- app_assoc; exact E).
              rewrite (withKid_kid Panic), (kid_at _ _ _ _ _ E2).
              cbn [concat] in F2. apply Forall_app in F2 as (F2 & _). inversion G2 as [|? ? Gb _]; subst x l. cbn in Gb.
              assert (byteCmp k b2 0 = -1) as -> by (unfold byteCmp; cbn; destruct (Z.compare_spec k b2); try lia; reflexivity).
              destruct (off_gt (length q) (1 <? d) _ _ _ Wc2 F2) as (f2 & d2 & Hr2 & FD & _). rewrite Hr2. unfold bind at 1.
              rewrite (PA _ _ _ _ (lss1 ++ [ls]) ls2 lss2' Ee2); [|rewrite <- app_assoc; exact El|rewrite !app_length; cbn; rewrite (WfK_length _ _ _ W1); reflexivity].
              unfold bind. cbn [Nat.add].
              assert (GF : Gfound (concat lss1 ++ ls ++ concat (ls2 :: lss2')) (hd_error ls2) (length (concat (lss1 ++ [ls])))).
              { cbn [concat]. replace (concat lss1 ++ ls ++ ls2 ++ concat lss2') with (concat (lss1 ++ [ls]) ++ ls2 ++ concat lss2') by (rewrite concat_app; cbn; rewrite app_nil_r, <- !app_assoc; reflexivity).
                apply hd_found; [apply (Wf_ne _ _ _ Wc2)| |exact F2]. rewrite concat_app. apply Forall_app. split; [exact U1|]. cbn. rewrite app_nil_r. exact Fu. }
              destruct f2; [eexists; split; [reflexivity|]; split; [left; exact GF|discriminate]|].
              destruct FD as [X|FD]; [discriminate|]. destruct (Z.ltb_spec d2 0) as [_|X]; [|lia].
              eexists. split; [reflexivity|]. split; [left; exact GF|discriminate].
        -- destruct (Z.ltb_spec 0 d) as [X|_]; [lia|].
           rewrite (prev_spec nd k es1 ((k, c) :: es2) E G1) by (constructor; [cbn; lia|]; eapply Forall_impl; [|exact G2]; cbn; intros; lia).
           destruct es1 as [|[b0 c0] eh _] using rev_ind.
           ++ cbn [rev]. inversion W1; subst lss1. cbn [concat app].
              rewrite (first_spec _ _ _ W0), El. cbn [concat app]. eexists. split; [reflexivity|]. split; [|intros ->; discriminate].
              destruct top; [|right; split; [lia|]; now apply Forall_app]. left.
              rewrite <- (Nat.add_0_l 0). change (0 + 0)%nat with (@length leaf []). 
              assert (HH : hd_error (ls ++ concat lss2) = hd_error ls) by (pose proof (Wf_ne _ _ _ Wc); now destruct ls). rewrite HH.
              apply (hd_found ls [] (concat lss2)); [apply (Wf_ne _ _ _ Wc)|constructor|exact Fg].
           ++ rewrite rev_app_distr. cbn [rev app]. assert (L0 : length (eh ++ [(b0, c0)]) = S (length eh)) by (rewrite app_length; cbn; lia). rewrite L0. cbn [Nat.sub]. rewrite Nat.sub_0_r.
              assert (E0 : Ents nd (eh ++ (b0, c0) :: (k, c) :: es2)) by (rewrite <- app_assoc in E; exact E).
              assert (Ee0 : es = eh ++ (b0, c0) :: (k, c) :: es2) by (rewrite <- app_assoc in Ee; exact Ee).
              destruct (WfK_split1 _ _ _ _ _ _ W1) as (lss0 & ls0 & lssn & -> & W00 & Wc0 & Wn). inversion Wn; subst lssn.
              apply Forall_app in G1 as (_ & G0). inversion G0 as [|? ? Gb _]; subst x l. cbn in Gb.
              apply Forall_app in BE1 as (_ & B0). inversion B0 as [|? ? Bb0 _]; subst x l. cbn in Bb0.
              rewrite (withKid_kid Panic), (kid_at _ _ _ _ _ E0).
              assert (byteCmp k b0 0 = 1) as -> by (unfold byteCmp; cbn; destruct (Z.compare_spec k b0); try lia; reflexivity).
              destruct (off_lt (length (q ++ [k])) _ _ _ Wc0 (KC _ _ _ Wc0 ltac:(lia))) as (v2 & Hr2). rewrite Hr2. unfold bind at 1.
              rewrite (PA _ _ _ _ lss0 ls0 (ls :: lss2) Ee0); [|rewrite El, <- app_assoc; reflexivity|apply (WfK_length _ _ _ W00)].
              unfold bind. cbn [Z.ltb Z.compare]. rewrite withKid_kid.
              pose proof (kid_at nd (eh ++ [(b0, c0)]) k c es2 E) as Kc. rewrite L0 in Kc. rewrite Kc.
              rewrite (first_spec _ _ _ Wc). eexists. split; [reflexivity|]. split; [|discriminate]. left.
              apply hd_found; [apply (Wf_ne _ _ _ Wc)|exact U1|exact Fg].
    + (* no child with that byte *)
      rewrite Ee in E, WK, BE. destruct (WfK_split _ _ _ _ WK) as (lss1 & lss2 & El & W1 & W2).
      apply Forall_app in BE as (BE1 & BE2).
      pose proof (KA _ _ BE1 W1 G1) as F1. pose proof (KB _ _ W2 G2) as F2. apply lt_under in F1 as U1.
      rewrite (gte_spec nd k es1 es2 E G1) by (eapply Forall_impl; [|exact G2]; cbn; intros; lia).
      rewrite El, concat_app.
      destruct es2 as [|[b2 c2] es2].
      { eexists. split; [reflexivity|]. split; [|intros _ _ _; lia]. left. split; [lia|]. inversion W2; subst lss2. cbn. rewrite app_nil_r. exact U1. }
      inversion W2 as [|? ? ? ? ls2 lss2' Wc2 Wr2]; subst lss2. inversion G2 as [|? ? Gb _]; subst x l. cbn in Gb.
      rewrite (withKid_kid Panic), (kid_at _ _ _ _ _ E).
      assert (byteCmp k b2 0 = -1) as -> by (unfold byteCmp; cbn; destruct (Z.compare_spec k b2); try lia; reflexivity).
      cbn [concat] in *. apply Forall_app in F2 as (F2 & F2').
      destruct (off_gt (S (length q)) false _ _ _ Wc2 F2) as (f2 & d2 & Hr2 & _ & FD). destruct (FD eq_refl) as (-> & ->). rewrite Hr2. unfold bind at 1.
      rewrite (PA _ _ _ _ lss1 ls2 lss2' Ee El (WfK_length _ _ _ W1)). unfold bind at 1. cbn [Z.ltb Z.compare].
      rewrite (prev_spec nd k es1 ((b2, c2) :: es2) E G1) by (eapply Forall_impl; [|exact G2]; cbn; intros; lia).
      destruct es1 as [|[b0 c0] eh _] using rev_ind.
      * cbn [rev]. inversion W1; subst lss1. cbn [concat app].
        rewrite (first_spec _ _ _ W0), El. cbn [concat app]. eexists. split; [reflexivity|]. split; [|intros ->; discriminate].
        destruct top; [|right; split; [lia|]; now apply Forall_app]. left.
        assert (HH : hd_error (ls2 ++ concat lss2') = hd_error ls2) by (pose proof (Wf_ne _ _ _ Wc2); now destruct ls2). rewrite HH.
        apply (hd_found ls2 [] (concat lss2')); [apply (Wf_ne _ _ _ Wc2)|constructor|exact F2].
      * rewrite rev_app_distr. cbn [rev app]. assert (L0 : length (eh ++ [(b0, c0)]) = S (length eh)) by (rewrite app_length; cbn; lia). rewrite L0. cbn [Nat.sub]. rewrite Nat.sub_0_r.
        assert (E0 : Ents nd (eh ++ (b0, c0) :: (b2, c2) :: es2)) by (rewrite <- app_assoc in E; exact E).
        assert (Ee0 : es = eh ++ (b0, c0) :: (b2, c2) :: es2) by (rewrite <- app_assoc in Ee; exact Ee).
        destruct (WfK_split1 _ _ _ _ _ _ W1) as (lss0 & ls0 & lssn & -> & W00 & Wc0 & Wn). inversion Wn; subst lssn.
        apply Forall_app in G1 as (_ & G0). inversion G0 as [|? ? Gb0 _]; subst x l. cbn in Gb0.
        apply Forall_app in BE1 as (_ & B0). inversion B0 as [|? ? Bb0 _]; subst x l. cbn in Bb0.
        rewrite (withKid_kid Panic), (kid_at _ _ _ _ _ E0).
        assert (byteCmp k b0 0 = 1) as -> by (unfold byteCmp; cbn; destruct (Z.compare_spec k b0); try lia; reflexivity).
        destruct (off_lt (S (length q)) _ _ _ Wc0 (KC _ _ _ Wc0 ltac:(lia))) as (v2 & Hr3). rewrite Hr3. unfold bind at 1.
        rewrite (PA _ _ _ _ lss0 ls0 (ls2 :: lss2') Ee0); [|rewrite El, <- app_assoc; reflexivity|apply (WfK_length _ _ _ W00)].
        unfold bind. cbn [Z.ltb Z.compare]. rewrite withKid_kid.
        pose proof (kid_at nd (eh ++ [(b0, c0)]) b2 c2 es2 E) as Kc. rewrite L0 in Kc. rewrite Kc.
        rewrite (first_spec _ _ _ Wc2). eexists. split; [reflexivity|]. split; [|discriminate]. left.
        apply hd_found; [apply (Wf_ne _ _ _ Wc2)|exact U1|exact F2].
Qed.

(** ** At or before *)
Definition Lfound (ls : list leaf) (v : option leaf) (id : nat) : Prop :=
  exists l1 l r, ls = l1 ++ l :: r /\ v = Some l /\ id = length l1 /\ Forall (fun l => over l = true) r /\ over l = false.
Definition Lmissing (ls : list leaf) (d : Z) : Prop :=
  (d < 0 /\ Forall (fun l => over l = true) ls) \/ (0 < d /\ Forall (fun l => bcmp (lKey l) key = Lt) ls).
Definition Lpost (b : bnode) (ls : list leaf) (r : found4) : Prop :=
  let '(v, f, d, id) := r in
  if f : bool then Lfound ls v id \/ (strict = true /\ exists pren l, b = BLeaf pren l /\ v = Some l /\ id = 0%nat /\ lKey l = key)
  else Lmissing ls d.

Lemma loff_lt : forall depth lwd p c ls, Wf p c ls -> Forall (fun l => bcmp (lKey l) key = Lt) ls ->
  exists f d, getLTE strict key depth false lwd 1 c = Ok (lastLeaf ls, f, d, (length ls - 1)%nat) /\ (f = true \/ 0 < d) /\ (lwd = false -> f = false /\ d = 1).
Proof.
  intros depth lwd p c ls W F. pose proof (last_spec _ _ _ W) as HF.
  inversion W as [? pren l P B|? pren comp ok sub nd es lss ? E Lo WK El Es Pr]; subst.
  - cbn [getLTE]. inversion F as [|? ? X _]; subst. rewrite leafGet_cases, bcmp_sym, X. exists false, 1. split; [reflexivity|]. split; [right; lia|auto].
  - cbn [getLTE]. destruct lwd; [exists true, 0; rewrite HF; split; [reflexivity|split; [now left|discriminate]]|].
    destruct key as [|k0 kr] eqn:Ek; [easy|]. cbn [Z.eqb]. rewrite HF. exists false, 1. split; [reflexivity|]. split; [right; lia|auto].
Qed.
Lemma loff_gt : forall depth p c ls, Wf p c ls -> Forall (fun l => bcmp key (lKey l) = Lt) ls ->
  exists v, getLTE strict key depth false false (-1) c = Ok (v, false, -1, 0%nat).
Proof.
  intros depth p c ls W F. inversion W as [? pren l P B|? pren comp ok sub nd es lss ? E Lo WK El Es Pr]; subst.
  - cbn [getLTE]. inversion F as [|? ? X _]; subst. rewrite leafGet_cases, X. eexists; reflexivity.
  - cbn [getLTE]. destruct key as [|k0 kr] eqn:Ek; [easy|]. cbn [Z.eqb]. eexists; reflexivity.
Qed.

Lemma last_found : forall ls ls1 ls2, ls <> [] -> Forall (fun l => over l = true) ls2 -> Forall (fun l => bcmp (lKey l) key = Lt) ls ->
  Lfound (ls1 ++ ls ++ ls2) (lastLeaf ls) (length ls1 + length ls - 1).
Proof.
  intros ls ls1 ls2 N F2 F. destruct ls as [|l ls _] using rev_ind; [easy|]. apply Forall_app in F as (_ & F). inversion F; subst.
  exists (ls1 ++ ls), l, ls2. split; [rewrite <- !app_assoc; reflexivity|]. split; [unfold lastLeaf; now rewrite rev_app_distr|].
  split; [rewrite !app_length; cbn; lia|]. split; [exact F2|]. now apply lt_not_over.
Qed.

Lemma lte_main : forall p b ls, Wf p b ls -> Agree key p -> forall top,
  exists r, getLTE strict key (length p) top false 0 b = Ok r /\ Lpost b ls r /\
    (top = true -> (match b with BInner _ comp _ _ _ => True | _ => False end) -> let '(_, f, d, _) := r in f = false -> d < 0).
Proof.
  apply (Wf_rec (fun p b ls => Agree key p -> forall top,
    exists r, getLTE strict key (length p) top false 0 b = Ok r /\ Lpost b ls r /\
    (top = true -> (match b with BInner _ comp _ _ _ => True | _ => False end) -> let '(_, f, d, _) := r in f = false -> d < 0))).
  - intros p pren l P B A top. cbn [getLTE]. exists (leafGet key l). split; [reflexivity|]. split; [|easy].
    rewrite leafGet_cases. destruct (bcmp key (lKey l)) eqn:E.
    + apply bcmp_eq in E. cbn. destruct strict eqn:Es.
      * right. split; [reflexivity|]. exists pren, l. auto.
      * left. exists [], l, []. repeat split; auto. unfold over. now rewrite E, bcmp_refl, Es.
    + left. split; [lia|]. constructor; [|constructor]. unfold over. now rewrite bcmp_sym, E.
    + right. split; [lia|]. constructor; [|constructor]. now rewrite bcmp_sym, E.
  - intros p pren comp ok sub nd es lss E Lo WK Es Pr IH A top.
    cbn [getLTE]. remember (BInner pren comp ok sub nd) as bb eqn:Ebb.
    assert (W0 : Wf p bb (concat lss)) by (subst bb; eapply Wf_inner; eauto).
    assert (KM : forall (X : res found4) (Y : res found4), (match key with [] => X | _ :: _ => Y end) = Y) by (intros; destruct key; easy).
    rewrite KM. clear KM. cbn [Z.eqb].
    assert (TL : forall d (t : bool), 0 < d -> Forall (fun l => bcmp (lKey l) key = Lt) (concat lss) -> Lpost bb (concat lss) (recursiveLast bb, t, d, (sub - 1)%nat)).
    { intros d t Hd F. rewrite (last_spec _ _ _ W0). destruct t; [left|right; auto].
      pose proof (last_found (concat lss) [] [] (Wf_ne _ _ _ W0) ltac:(constructor) F) as X. cbn [app length Nat.add] in X. rewrite app_nil_r in X. rewrite Es. exact X. }
    destruct (checkCompressed comp key (length p)) as [x|] eqn:Ck.
    { assert (CS : Forall (fun l => if x then bcmp (lKey l) key = Lt else bcmp key (lKey l) = Lt) (concat lss)).
      { apply Forall_forall. intros l Hl. destruct (WfK_path _ _ _ WK _ Hl) as (e & _ & P & B). apply prefix_app in P. eapply check_Some; eauto. }
      destruct x.
      - eexists. split; [reflexivity|]. split; [|intros ->; discriminate]. apply TL; [lia|exact CS].
      - eexists. split; [reflexivity|]. split; [|intros _ _ _; lia]. left. split; [lia|]. now apply gt_over. }
    pose proof (check_None _ _ _ A Ck) as Aq. rewrite <- app_length. remember (p ++ comp) as q eqn:Eq.
    pose proof (At_bytes key (length q) Bk) as Bb. pose proof (agree_step _ _ Aq) as As.
    assert (KA : forall es1 lss1, bytesE es1 -> WfK q es1 lss1 -> Forall (fun e => fst e < At key (length q)) es1 -> Forall (fun l => bcmp (lKey l) key = Lt) (concat lss1)).
    { intros. eapply kids_agree_lt; eauto. }
    assert (KB : forall es2 lss2, WfK q es2 lss2 -> Forall (fun e => At key (length q) < fst e) es2 -> Forall (fun l => bcmp key (lKey l) = Lt) (concat lss2)).
    { intros. eapply kids_agree_gt; eauto. }
    assert (KC : forall b c ls, Wf (q ++ [b]) c ls -> 0 <= b < At key (length q) -> Forall (fun l => bcmp (lKey l) key = Lt) ls).
    { intros. eapply kid_agree_lt; eauto. }
    assert (KD : forall b c ls, Wf (q ++ [b]) c ls -> At key (length q) < b -> Forall (fun l => bcmp key (lKey l) = Lt) ls).
    { intros. eapply kid_agree_gt; eauto. }
    remember (At key (length q)) as k eqn:Ekk. clear Ekk.
    assert (PA : forall es1 b c es2 lss1 ls lss2, es = es1 ++ (b, c) :: es2 -> lss = lss1 ++ ls :: lss2 -> length es1 = length lss1 ->
      prenAt bb (idx nd (length es1) b) = Ok (length (concat lss1))).
    { intros es1 b c es2 lss1 ls lss2 -> -> L1. subst bb. eapply prenAt_spec; eauto. rewrite <- Eq. exact WK. }
    pose proof (proj1 (proj2 E)) as BE.
    destruct (byte_cases es k (proj1 E)) as [(es1 & c & es2 & Ee & G1 & G2)|(es1 & es2 & Ee & G1 & G2 & NI)].
    + (* a child with the byte of the key *)
      rewrite Ee in E, WK, BE. destruct (WfK_split1 _ _ _ _ _ _ WK) as (lss1 & ls & lss2 & El & W1 & Wc & W2).
      apply Forall_app in BE as (BE1 & BE2).
      pose proof (KA _ _ BE1 W1 G1) as F1. pose proof (KB _ _ W2 G2) as F2. apply gt_over in F2 as O2.
      assert (Hl : lte nd k = Some (k, idx nd (length es1) k)).
      { rewrite (lte_spec nd k (es1 ++ [(k, c)]) es2); [| | |exact G2].
        - rewrite rev_app_distr. cbn [rev app]. rewrite app_length. cbn [length]. do 2 f_equal. f_equal. lia.
        - rewrite <- app_assoc. exact E.
        - apply Forall_app. split; [eapply Forall_impl; [|exact G1]; cbn; intros; lia|]. constructor; [cbn; lia|constructor]. }
      rewrite Hl. rewrite (withKid_kid Panic), (kid_at _ _ _ _ _ E).
      assert (byteCmp k k 0 = 0) as -> by (unfold byteCmp; now rewrite Z.compare_refl).
      destruct (IH _ _ _ _ _ _ _ Ee El W1 Wc W2 As false) as ([[[v f] d] id] & Hr & Po & _).
      replace (S (length q)) with (length (q ++ [k])) by (rewrite app_length; cbn; lia). rewrite Hr. unfold bind at 1.
      unfold bind at 1. rewrite (PA _ _ _ _ _ _ _ Ee El (WfK_length _ _ _ W1)).
      assert (Hprev : prev nd (Some k) = match rev es1 with [] => None | (b, _) :: _ => Some (b, idx nd (length es1 - 1) b) end).
      { apply (prev_spec nd k es1 ((k, c) :: es2) E G1). constructor; [cbn; lia|]. eapply Forall_impl; [|exact G2]; cbn; intros; lia. }
      destruct f; cbn in Po.
      * rewrite El, concat_app. cbn [concat].
        destruct Po as [(l1 & l & r & -> & -> & -> & Fu & Nu)|(St & pc & lc & -> & -> & -> & Kl)].
        -- assert (GF : Lfound (concat lss1 ++ (l1 ++ l :: r) ++ concat lss2) (Some l) (length l1 + length (concat lss1))).
           { exists (concat lss1 ++ l1), l, (r ++ concat lss2). split; [rewrite <- !app_assoc; reflexivity|]. split; [reflexivity|].
             split; [rewrite app_length; lia|]. split; [now apply Forall_app|exact Nu]. }
           destruct strict eqn:Es'; cbn [negb].
           ++ unfold over in Nu. destruct (bcmp (lKey l) key) eqn:Ec; try (rewrite Es' in Nu; discriminate); try discriminate.
              eexists. split; [reflexivity|]. split; [left; exact GF|]. discriminate.
           ++ eexists. split; [reflexivity|]. split; [left; exact GF|]. discriminate.
        -- inversion Wc as [? ? ? Pl Bl|]; subst ls. rewrite St. cbn [negb]. rewrite Kl, bcmp_refl. rewrite Hprev.
           assert (Ul : over lc = true) by (unfold over; rewrite Kl, bcmp_refl; exact St).
           destruct es1 as [|[b0 c0] eh _] using rev_ind.
           ++ cbn [rev]. eexists. split; [reflexivity|]. split; [|intros _ _ _; lia]. left. split; [lia|]. inversion W1; subst lss1. cbn. constructor; [exact Ul|exact O2].
           ++ rewrite rev_app_distr. cbn [rev app]. assert (L0 : length (eh ++ [(b0, c0)]) = S (length eh)) by (rewrite app_length; cbn; lia). rewrite L0. cbn [Nat.sub]. rewrite Nat.sub_0_r.
              assert (E0 : Ents nd (eh ++ (b0, c0) :: (k, BLeaf pc lc) :: es2)) by (rewrite <- app_assoc in E; exact E).
              assert (Ee0 : es = eh ++ (b0, c0) :: (k, BLeaf pc lc) :: es2) by (rewrite <- app_assoc in Ee; exact Ee).
              destruct (WfK_split1 _ _ _ _ _ _ W1) as (lss0 & ls0 & lssn & -> & W00 & Wc0 & Wn). inversion Wn; subst lssn.
              rewrite (PA _ _ _ _ lss0 ls0 ([lc] :: lss2) Ee0); [|rewrite El, <- app_assoc; reflexivity|apply (WfK_length _ _ _ W00)].
              unfold bind. rewrite withKid_kid, (kid_at _ _ _ _ _ E0), (last_spec _ _ _ Wc0), (subn_length _ _ _ Wc0).
              eexists. split; [reflexivity|]. split; [|discriminate]. left. rewrite concat_app in *. cbn [concat] in *. rewrite app_nil_r in *.
              rewrite <- app_assoc. apply last_found.
              ** apply (Wf_ne _ _ _ Wc0).
              ** constructor; [exact Ul|exact O2].
              ** apply Forall_app in F1. apply F1.
      * (* nothing below *)
        destruct Po as [(Hd & Fu)|(Hd & Fg)].
        -- destruct (Z.ltb_spec d 0) as [_|X]; [|lia]. rewrite Hprev. rewrite El, concat_app. cbn [concat].
           destruct es1 as [|[b0 c0] eh _] using rev_ind.
           ++ cbn [rev]. eexists. split; [reflexivity|]. split; [|intros _ _ _; lia]. left. split; [lia|]. inversion W1; subst lss1. cbn. apply Forall_app. split; [exact Fu|exact O2].
           ++ rewrite rev_app_distr. cbn [rev app]. assert (L0 : length (eh ++ [(b0, c0)]) = S (length eh)) by (rewrite app_length; cbn; lia). rewrite L0. cbn [Nat.sub]. rewrite Nat.sub_0_r.
              assert (E0 : Ents nd (eh ++ (b0, c0) :: (k, c) :: es2)) by (rewrite <- app_assoc in E; exact E).
              assert (Ee0 : es = eh ++ (b0, c0) :: (k, c) :: es2) by (rewrite <- app_assoc in Ee; exact Ee).
              destruct (WfK_split1 _ _ _ _ _ _ W1) as (lss0 & ls0 & lssn & -> & W00 & Wc0 & Wn). inversion Wn; subst lssn.
              apply Forall_app in G1 as (_ & G0). inversion G0 as [|? ? Gb _]; subst x l. cbn in Gb.
              rewrite concat_app in *. cbn [concat] in *. rewrite app_nil_r in *. apply Forall_app in F1 as (_ & F1).
              rewrite (withKid_kid Panic), (kid_at _ _ _ _ _ E0).
              assert (byteCmp k b0 0 = 1) as -> by (unfold byteCmp; cbn; destruct (Z.compare_spec k b0); try lia; reflexivity).
              destruct (loff_lt (length q) (d <? -1) _ _ _ Wc0 F1) as (f2 & d2 & Hr2 & FD & _). rewrite Hr2. unfold bind at 1.
              rewrite (PA _ _ _ _ lss0 ls0 (ls :: lss2) Ee0); [|rewrite El, <- app_assoc; reflexivity|apply (WfK_length _ _ _ W00)].
              unfold bind.
              assert (GF : Lfound ((concat lss0 ++ ls0) ++ ls ++ concat lss2) (lastLeaf ls0) (length ls0 - 1 + length (concat lss0))).
              { rewrite <- app_assoc. pose proof (Wf_ne _ _ _ Wc0) as N0.
                replace (length ls0 - 1 + length (concat lss0))%nat with (length (concat lss0) + length ls0 - 1)%nat by (destruct ls0; [easy|cbn; lia]).
                apply last_found; [exact N0| |exact F1]. apply Forall_app. split; [exact Fu|exact O2]. }
              destruct f2; [eexists; split; [reflexivity|]; split; [left; exact GF|discriminate]|].
              destruct FD as [X|FD]; [discriminate|]. destruct (Z.ltb_spec 0 d2) as [_|X]; [|lia].
              eexists. split; [reflexivity|]. split; [left; exact GF|discriminate].
        -- destruct (Z.ltb_spec d 0) as [X|_]; [lia|].
           rewrite (next_spec nd k (es1 ++ [(k, c)]) es2); [| | |exact G2].
           2: { rewrite <- app_assoc. exact E. }
           2: { apply Forall_app. split; [eapply Forall_impl; [|exact G1]; cbn; intros; lia|]. constructor; [cbn; lia|constructor]. }
           destruct es2 as [|[b2 c2] es2].
           ++ eexists. split; [reflexivity|]. split; [|intros ->; discriminate]. apply TL; [lia|]. rewrite El, concat_app. inversion W2; subst lss2. cbn. rewrite app_nil_r.
              apply Forall_app. split; [exact F1|exact Fg].
           ++ rewrite El, concat_app. cbn [concat]. inversion W2 as [|? ? ? ? ls2 lss2' Wc2 Wr2]; subst lss2.
              assert (Ee2 : es = (es1 ++ [(k, c)]) ++ (b2, c2) :: es2) by (rewrite <- app_assoc; exact Ee).
              assert (E2 : Ents nd ((es1 ++ [(k, c)]) ++ (b2, c2) :: es2)) by (rewrite <- app_assoc; exact E).
              rewrite (withKid_kid Panic), (kid_at _ _ _ _ _ E2).
              cbn [concat] in F2. apply Forall_app in F2 as (F2 & _). inversion G2 as [|? ? Gb _]; subst x l. cbn in Gb.
              assert (byteCmp k b2 0 = -1) as -> by (unfold byteCmp; cbn; destruct (Z.compare_spec k b2); try lia; reflexivity).
              destruct (loff_gt (length (q ++ [k])) _ _ _ Wc2 F2) as (v2 & Hr2). rewrite Hr2. unfold bind at 1.
              rewrite (PA _ _ _ _ (lss1 ++ [ls]) ls2 lss2' Ee2); [|rewrite <- app_assoc; exact El|rewrite !app_length; cbn; rewrite (WfK_length _ _ _ W1); reflexivity].
              unfold bind. cbn [Z.ltb Z.compare]. rewrite withKid_kid, (kid_at _ _ _ _ _ E), (last_spec _ _ _ Wc), (subn_length _ _ _ Wc).
              eexists. split; [reflexivity|]. split; [|discriminate]. left.
              apply last_found; [apply (Wf_ne _ _ _ Wc)|exact O2|exact Fg].
    + (* no child with that byte *)
      rewrite Ee in E, WK, BE. destruct (WfK_split _ _ _ _ WK) as (lss1 & lss2 & El & W1 & W2).
      apply Forall_app in BE as (BE1 & BE2).
      pose proof (KA _ _ BE1 W1 G1) as F1. pose proof (KB _ _ W2 G2) as F2. apply gt_over in F2 as O2.
      rewrite (lte_spec nd k es1 es2 E); [|eapply Forall_impl; [|exact G1]; cbn; intros; lia|exact G2].
      destruct es1 as [|[b0 c0] eh _] using rev_ind.
      { cbn [rev]. eexists. split; [reflexivity|]. split; [|intros _ _ _; lia]. left. split; [lia|]. rewrite El, concat_app. inversion W1; subst lss1. cbn. exact O2. }
      rewrite rev_app_distr. cbn [rev app]. assert (L0 : length (eh ++ [(b0, c0)]) = S (length eh)) by (rewrite app_length; cbn; lia). rewrite L0. cbn [Nat.sub]. rewrite Nat.sub_0_r.
      assert (E0 : Ents nd (eh ++ (b0, c0) :: es2)) by (rewrite <- app_assoc in E; exact E).
      assert (Ee0 : es = eh ++ (b0, c0) :: es2) by (rewrite <- app_assoc in Ee; exact Ee).
      destruct (WfK_split1 _ _ _ _ _ _ W1) as (lss0 & ls0 & lssn & -> & W00 & Wc0 & Wn). inversion Wn; subst lssn.
      assert (G1' := G1). apply Forall_app in G1 as (_ & G0). inversion G0 as [|? ? Gb _]; subst x l. cbn in Gb.
      assert (F1' := F1). rewrite concat_app in F1. cbn [concat] in F1. rewrite app_nil_r in F1. apply Forall_app in F1 as (_ & F1).
      rewrite (withKid_kid Panic), (kid_at _ _ _ _ _ E0).
      assert (byteCmp k b0 0 = 1) as -> by (unfold byteCmp; cbn; destruct (Z.compare_spec k b0); try lia; reflexivity).
      destruct (loff_lt (S (length q)) false _ _ _ Wc0 F1) as (f2 & d2 & Hr2 & _ & FD). destruct (FD eq_refl) as (-> & ->). rewrite Hr2. unfold bind at 1.
      rewrite (PA _ _ _ _ lss0 ls0 lss2 Ee0); [|rewrite El, <- app_assoc; reflexivity|apply (WfK_length _ _ _ W00)].
      unfold bind at 1. cbn [Z.ltb Z.compare].
      rewrite (next_spec nd k (eh ++ [(b0, c0)]) es2 E); [|eapply Forall_impl; [|exact G1']; cbn; intros; lia|exact G2].
      destruct es2 as [|[b2 c2] es2].
      * eexists. split; [reflexivity|]. split; [|intros ->; discriminate]. apply TL; [lia|]. rewrite El, concat_app. inversion W2; subst lss2. cbn. rewrite app_nil_r. exact F1'.
      * rewrite El, concat_app. inversion W2 as [|? ? ? ? ls2 lss2' Wc2 Wr2]; subst lss2. inversion G2 as [|? ? Gb2 _]; subst x l. cbn in Gb2.
        rewrite (withKid_kid Panic), (kid_at _ _ _ _ _ E).
        assert (byteCmp k b2 0 = -1) as -> by (unfold byteCmp; cbn; destruct (Z.compare_spec k b2); try lia; reflexivity).
        cbn [concat] in F2. apply Forall_app in F2 as (F2 & _).
        destruct (loff_gt (S (length q)) _ _ _ Wc2 F2) as (v2 & Hr3). rewrite Hr3. unfold bind at 1.
        rewrite (PA _ _ _ _ (lss0 ++ [ls0]) ls2 lss2' Ee); [|exact El|apply (WfK_length _ _ _ W1)].
        unfold bind. cbn [Z.ltb Z.compare]. rewrite withKid_kid, (kid_at _ _ _ _ _ E0), (last_spec _ _ _ Wc0), (subn_length _ _ _ Wc0).
        eexists. split; [reflexivity|]. split; [|discriminate]. left.
        rewrite concat_app. cbn [concat]. rewrite app_nil_r, <- app_assoc.
        apply last_found; [apply (Wf_ne _ _ _ Wc0)|exact O2|exact F1].
Qed.
End Search.
