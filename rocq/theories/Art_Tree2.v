(** Removal, the counts of leaves before a child, and exact search. *)
From Coq Require Import List ZArith Lia Bool Sorting.Sorted.
From Verif Require Import Base Art_Model Art_Node Art_Node2 Art_Tree.
Import ListNotations.
Open Scope Z_scope.

(** ** The list of leaves *)
Definition shift (n : nat) (o : option (leaf * nat)) : option (leaf * nat) := option_map (fun p => (fst p, (n + snd p)%nat)) o.

Lemma lget_none : forall k ls, lget k ls = None <-> (forall l, In l ls -> lKey l <> k).
Proof.
  intros k. induction ls as [|l ls IH]; cbn; [split; easy|]. destruct (beqb k (lKey l)) eqn:E.
  - apply beqb_true in E. split; [discriminate|]. intros H. exfalso. apply (H l); auto.
  - apply beqb_false in E. split.
    + intros H. destruct (lget k ls); [discriminate|]. intros l' [<-|Hl]; [congruence|]. now apply IH.
    + intros H. rewrite (proj2 IH); [reflexivity|]. intros l' Hl. apply H. now right.
Qed.
Lemma lget_some : forall k ls l i, lget k ls = Some (l, i) -> nth_error ls i = Some l /\ lKey l = k.
Proof.
  intros k. induction ls as [|x ls IH]; intros l i H; cbn in H; [discriminate|]. destruct (beqb k (lKey x)) eqn:E.
  - apply beqb_true in E. inversion H; subst. auto.
  - destruct (lget k ls) as [[l' i']|]; [|discriminate]. inversion H; subst. cbn. now apply IH.
Qed.
Lemma shift_shift : forall a b o, shift a (shift b o) = shift (a + b) o.
Proof. intros a b [[l i]|]; cbn; [|reflexivity]. now rewrite Nat.add_assoc. Qed.
Lemma shift_0 : forall o, shift 0 o = o.
Proof. intros [[l i]|]; reflexivity. Qed.
Lemma lget_before : forall k l1 r, (forall l, In l l1 -> lKey l <> k) -> lget k (l1 ++ r) = shift (length l1) (lget k r).
Proof.
  intros k. induction l1 as [|l l1 IH]; intros r H; cbn; [now rewrite shift_0|].
  assert (beqb k (lKey l) = false) as -> by (apply beqb_false; intros ->; apply (H l); [now left|reflexivity]).
  rewrite IH by (intros l' Hl; apply H; now right). destruct (lget k r) as [[x i]|]; reflexivity.
Qed.
Lemma lget_after : forall k l2 ls, (forall l, In l l2 -> lKey l <> k) -> lget k (ls ++ l2) = lget k ls.
Proof.
  intros k l2. induction ls as [|l ls IH]; intros H; cbn.
  - now apply lget_none.
  - destruct (beqb k (lKey l)); [reflexivity|]. now rewrite IH.
Qed.
Lemma ldel_app : forall k a b, ldel k (a ++ b) = ldel k a ++ ldel k b.
Proof. intros. apply filter_app. Qed.
Lemma ldel_none : forall k ls, (forall l, In l ls -> lKey l <> k) -> ldel k ls = ls.
Proof.
  intros k ls H. apply filter_all. intros l Hl. apply negb_true_iff, beqb_false. intros ->. now apply (H l).
Qed.
Lemma ldel_length : forall k ls, StronglySorted klt ls -> length (ldel k ls) = (length ls - match lget k ls with Some _ => 1 | None => 0 end)%nat.
Proof.
  intros k. induction ls as [|l ls IH]; intros S; [reflexivity|]. inversion S as [|? ? S' F]; subst. cbn [ldel filter lget].
  destruct (beqb k (lKey l)) eqn:E; cbn [negb].
  - apply beqb_true in E. change (filter _ ls) with (ldel k ls). rewrite ldel_none; [cbn; lia|].
    intros l' Hl X. rewrite Forall_forall in F. specialize (F _ Hl). unfold klt in F. rewrite <- E, X, bcmp_refl in F. discriminate.
  - cbn [length]. change (filter _ ls) with (ldel k ls). rewrite IH by exact S'. destruct (lget k ls) as [[x i]|] eqn:G; cbn; [|lia].
    apply lget_some in G as (G & _). destruct ls; [destruct i; discriminate|]. cbn. lia.
Qed.

(** ** Where a key can be *)
Lemma path_byte : forall q b k, prefix (q ++ [b]) (term k) -> At k (length q) = b.
Proof.
  intros q b k (r & H). rewrite <- app_assoc in H. cbn in H. apply term_split in H as [(_ & -> & ->)|(r' & _ & ->)]; [apply At_end|apply At_app].
Qed.

Lemma mismatch_prefix : forall comp r rest, comp ++ r = rest ++ [0] -> mismatch comp rest = None.
Proof.
  induction comp as [|c comp IH]; intros r rest H; [reflexivity|]. destruct rest as [|k rest]; [reflexivity|].
  cbn in H. inversion H; subst. cbn. rewrite Z.eqb_refl. eapply IH; eauto.
Qed.
Lemma check_prefix : forall p comp k, prefix (p ++ comp) (term k) -> checkCompressed comp k (length p) = None.
Proof.
  intros p comp k (r & H). unfold checkCompressed. rewrite <- app_assoc in H.
  assert (Hp : prefix p (term k)) by (now exists (comp ++ r)).
  apply prefix_term_key in Hp as [->|(rest & ->)].
  - rewrite skipn_all2; [destruct comp; reflexivity|]. unfold term. rewrite app_length. lia.
  - rewrite skipn_app_at. unfold term in H. rewrite <- app_assoc in H. apply app_inv_head in H. eapply mismatch_prefix. symmetry. exact H.
Qed.

(** A key among the leaves lies below the child of its byte. *)
Lemma kid_cases : forall q es lss key, sortedE es -> WfK q es lss ->
  (exists es1 c es2 lss1 ls lss2, es = es1 ++ (At key (length q), c) :: es2 /\ lss = lss1 ++ ls :: lss2 /\
     WfK q es1 lss1 /\ Wf (q ++ [At key (length q)]) c ls /\ WfK q es2 lss2 /\
     (forall l, In l (concat lss1) -> lKey l <> key) /\ (forall l, In l (concat lss2) -> lKey l <> key)) \/
  ((forall c, ~ In (At key (length q), c) es) /\ (forall l, In l (concat lss) -> lKey l <> key)).
Proof.
  intros q es lss key S W.
  assert (G : forall es' lss', WfK q es' lss' -> (forall c, ~ In (At key (length q), c) es') -> forall l, In l (concat lss') -> lKey l <> key).
  { intros es' lss' W' N l Hl E. destruct (WfK_path _ _ _ W' _ Hl) as ((b, c) & He & P & _). cbn in P. rewrite E in P. apply path_byte in P.
    rewrite <- P in He. now apply N in He. }
  destruct (byte_cases es (At key (length q)) S) as [(es1 & c & es2 & -> & G1 & G2)|(es1 & es2 & E & G1 & G2 & NI)].
  - left. destruct (WfK_split1 _ _ _ _ _ _ W) as (lss1 & ls & lss2 & -> & W1 & Wc & W2). exists es1, c, es2, lss1, ls, lss2.
    rewrite Forall_forall in G1, G2. repeat (split; [assumption || reflexivity|]). split.
    + apply (G es1 lss1 W1). intros x Hx. specialize (G1 _ Hx). cbn in G1. lia.
    + apply (G es2 lss2 W2). intros x Hx. specialize (G2 _ Hx). cbn in G2. lia.
  - right. split; [exact NI|]. now apply (G es lss W).
Qed.

Lemma no_match_none : forall p comp es lss key x, WfK (p ++ comp) es lss -> checkCompressed comp key (length p) = Some x ->
  lget key (concat lss) = None.
Proof.
  intros p comp es lss key x W H. apply lget_none. intros l Hl E. destruct (WfK_path _ _ _ W _ Hl) as (e & _ & P & _).
  apply prefix_app in P. rewrite E in P. apply check_prefix in P. congruence.
Qed.

Lemma wf_inner_kid : forall q pren comp ok sub nd ls, Wf q (BInner pren comp ok sub nd) ls -> sub = length ls.
Proof. intros q pren comp ok sub nd ls W. now inversion W. Qed.

Lemma subn_length : forall q b ls, Wf q b ls -> subn b = length ls.
Proof. intros q b ls W. inversion W; subst; reflexivity. Qed.

(** ** Removal *)
Definition Deleted (key : bytes) (p : bytes) (b : bnode) (ls : list leaf) : Prop :=
  match lget key ls with
  | None => del key (length p) b = Ok Absent
  | Some (l, _) =>
      match b with
      | BLeaf _ _ => del key (length p) b = Ok (Removed l None)
      | BInner _ _ _ _ _ => exists b', del key (length p) b = Ok (Removed l (Some b')) /\ Wf p b' (ldel key ls)
      end
  end.

Lemma lo_atMin : forall {C} (nd : inode C) es, Ents nd es -> (lo nd <= length es)%nat ->
  atMin nd = (length es =? lo nd)%nat.
Proof.
  intros C nd es E Lo. pose proof (ents_lth _ _ E) as L. destruct nd; cbn in *; subst.
  all: match goal with |- context [(?a <=? ?b)%nat] => destruct (Nat.leb_spec a b) | _ => idtac end.
  all: match goal with |- context [(?a =? ?b)%nat] => destruct (Nat.eqb_spec a b) | _ => idtac end; try reflexivity; lia.
Qed.

Lemma add_prefix : forall p comp b c ls, Wf ((p ++ comp) ++ [b]) c ls -> Wf p (addPrefixBefore comp b c) ls.
Proof.
  intros p comp b c ls W. inversion W as [? ? l P B|? pren cc ok sub nd es lss ? E Lo WK El Es Pr]; subst; cbn [addPrefixBefore].
  - constructor; [|exact B]. apply prefix_app in P. now apply prefix_app in P.
  - eapply Wf_inner; eauto. replace (p ++ comp ++ b :: cc) with (((p ++ comp) ++ [b]) ++ cc) by (rewrite <- !app_assoc; reflexivity). exact WK.
Qed.

Theorem del_spec : forall key, Bytes key -> forall p b ls, Wf p b ls -> Deleted key p b ls.
Proof.
  intros key Bk. apply Wf_rec.
  - intros p pren l P B. unfold Deleted. cbn [lget del]. destruct (beqb key (lKey l)) eqn:E.
    + apply beqb_true in E. subst. assert (beqb (lKey l) (lKey l) = true) as -> by now apply beqb_true. reflexivity.
    + cbn [option_map]. assert (beqb (lKey l) key = false) as -> by (apply beqb_false; apply beqb_false in E; congruence). reflexivity.
  - intros p pren comp ok sub nd es lss E Lo WK Es Pr IH. unfold Deleted. cbn [del].
    destruct (checkCompressed comp key (length p)) as [x|] eqn:Ck.
    { rewrite (no_match_none _ _ _ _ _ _ WK Ck). reflexivity. }
    rewrite <- app_length. remember (p ++ comp) as q eqn:Eq.
    assert (W0 : Wf p (BInner pren comp ok sub nd) (concat lss)) by (subst q; eapply Wf_inner; eauto).
    pose proof (At_bytes _ (length q) Bk) as Bb.
    destruct (kid_cases _ _ _ key (proj1 E) WK) as [(es1 & c & es2 & lss1 & ls & lss2 & Ee & El & W1 & Wc & W2 & N1 & N2)|(NI & N)].
    2: { rewrite (child_notin _ _ _ E Bb NI), (proj2 (lget_none _ _) N). reflexivity. }
    remember (At key (length q)) as k eqn:Ekk. clear Ekk. subst es lss.
    rewrite (child_in _ _ _ _ _ E), (kid_at _ _ _ _ _ E).
    specialize (IH _ _ _ _ _ _ _ eq_refl eq_refl W1 Wc W2). unfold Deleted in IH.
    rewrite concat_app in *. cbn [concat] in *. rewrite (lget_before _ _ _ N1), (lget_after _ _ _ N2).
    rewrite !ldel_app, (ldel_none _ _ N1), (ldel_none _ _ N2).
    assert (Sl : StronglySorted klt ls) by (eapply Wf_sorted; exact Wc). pose proof (ldel_length key ls Sl) as Dl.
    replace (S (length q)) with (length (q ++ [k])) by (rewrite app_length; cbn; lia).
    destruct c as [pc lc|pc cc oc sc ndc].
    + (* the child is a leaf *)
      inversion Wc as [? ? ? Pl Bl|]; subst. cbn [lget del] in *. destruct (beqb key (lKey lc)) eqn:Ek.
      * cbn [shift option_map fst]. assert (beqb (lKey lc) key = true) as -> by (apply beqb_true; apply beqb_true in Ek; congruence).
        cbn [ldel filter]. rewrite Ek. cbn [negb app].
        destruct (removeKid_spec nd es1 es2 k _ E) as (Er & Kr). remember (removeKid nd (idx nd (length es1) k)) as nd' eqn:End.
        rewrite (lo_atMin nd _ E Lo). destruct (Nat.eqb_spec (length (es1 ++ (k, BLeaf pc lc) :: es2)) (lo nd)) as [Lm|Lm].
        -- rewrite andb_true_r. destruct (isN4 nd) eqn:I4.
           ++ (* collapse *)
              assert (Ln : length (es1 ++ es2) = 1%nat).
              { destruct nd; try discriminate. cbn in Lm. rewrite app_length in *. cbn [length] in Lm. lia. }
              rewrite (next_first _ _ Er).
              destruct (es1 ++ es2) as [|[b0 c0] [|? ?]] eqn:Ee; try discriminate.
              pose proof (kid_at nd' [] b0 c0 [] Er) as Hk. cbn [length] in Hk. rewrite Hk.
              eexists. split; [reflexivity|]. apply add_prefix.
              assert (WW : WfK (p ++ comp) (es1 ++ es2) (lss1 ++ lss2)) by (apply WfK_app; assumption).
              rewrite <- concat_app. rewrite Ee in WW. inversion WW as [|? ? ? ? l1 lr Wx Wr]; subst. inversion Wr; subst.
              cbn [concat]. rewrite app_nil_r. exact Wx.
           ++ cbn [andb negb].
              assert (LL : (length (es1 ++ es2) <= match cap nd' with 16 => 4 | 48 => 16 | _ => 48 end)%nat).
              { rewrite Kr. rewrite app_length in *. cbn [length] in Lm. destruct nd; cbn in *; try discriminate; lia. }
              assert (I4' : isN4 nd' = false) by (destruct nd, nd'; cbn in Kr, I4; try discriminate; reflexivity).
              destruct (shrink_spec nd' _ Er I4' LL) as (n2 & Hs & E2 & K2). unfold bind. rewrite Hs.
              eexists. split; [reflexivity|]. eapply Wf_inner with (lss := lss1 ++ lss2); [exact E2| | | | |discriminate].
              ** rewrite app_length in *. cbn [length] in Lm. rewrite Kr in K2. destruct nd; cbn in *; try discriminate; destruct n2; cbn in *; try discriminate; lia.
              ** apply WfK_app; assumption.
              ** now rewrite concat_app.
              ** rewrite !app_length in *. cbn [length] in *. lia.
        -- rewrite andb_false_r. cbn [andb]. unfold bind. eexists. split; [reflexivity|].
           eapply Wf_inner with (lss := lss1 ++ lss2); [exact Er| | | | |discriminate].
           ++ replace (lo nd') with (lo nd) by (destruct nd, nd'; cbn in Kr; try discriminate; reflexivity). rewrite app_length in *. cbn [length] in *. lia.
           ++ apply WfK_app; assumption.
           ++ now rewrite concat_app.
           ++ rewrite !app_length in *. cbn [length] in *. lia.
      * cbn [shift option_map]. assert (beqb (lKey lc) key = false) as -> by (apply beqb_false; apply beqb_false in Ek; congruence). reflexivity.
    + rewrite withKid_kid, (kid_at _ _ _ _ _ E).
      destruct (lget key ls) as [[l i]|] eqn:G; cbn [shift option_map fst].
      * destruct IH as (b' & Hd & Wb). unfold bind. rewrite Hd. eexists. split; [reflexivity|].
        eapply Wf_inner with (lss := lss1 ++ ldel key ls :: lss2); [| | | | |discriminate].
        -- apply replaceKid_spec with (c := BInner pc cc oc sc ndc). exact E.
        -- replace (lo (replaceKid nd (idx nd (length es1) k) b')) with (lo nd) by (destruct nd; reflexivity). rewrite app_length in *. exact Lo.
        -- rewrite <- Eq. apply WfK_app; [exact W1|]. constructor; [exact Wb|exact W2].
        -- now rewrite concat_app.
        -- rewrite Es, !app_length, Dl. apply lget_some in G as (G & _). destruct ls; [destruct i; discriminate|]. cbn [length]. lia.
      * unfold bind. rewrite IH. reflexivity.
Qed.
