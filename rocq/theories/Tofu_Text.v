(** Reading and writing the known-keys file. *)
From Coq Require Import List Bool Ascii String Arith Lia.
From Verif Require Import Tofu_Model Tofu_Spec.
Import ListNotations.

Lemma teq_spec : forall a b, teq a b = true <-> a = b.
Proof.
  induction a as [|x a IH]; intros [|y b]; cbn [teq]; split; intros H; try discriminate; auto.
  - apply andb_prop in H as [H1 H2]. apply Ascii.eqb_eq in H1. apply IH in H2. congruence.
  - injection H as -> ->. rewrite Ascii.eqb_refl. apply IH. reflexivity.
Qed.

Lemma teq_refl : forall a, teq a a = true.
Proof. intros a. apply teq_spec. reflexivity. Qed.

Lemma hasPub_spec : forall k kn, hasPub k kn = true <-> In k (pubKeys kn).
Proof.
  intros k kn. unfold hasPub. rewrite existsb_exists. split.
  - intros (x & Hx & E). apply teq_spec in E. congruence.
  - intros H. exists k. split; [exact H | apply teq_refl].
Qed.

(** ** splitOn *)

Lemma splitOn_nil : forall c t, splitOn c t <> [].
Proof.
  intros c [|x t]; cbn [splitOn]; [discriminate|].
  destruct (Ascii.eqb x c); [discriminate|]. destruct (splitOn c t); discriminate.
Qed.

Lemma splitOn_none : forall c t, ~ In c t -> splitOn c t = [t].
Proof.
  induction t as [|x t IH]; cbn [splitOn]; intros H; [reflexivity|].
  destruct (Ascii.eqb_spec x c) as [->|N]; [exfalso; apply H; left; reflexivity|].
  rewrite IH; [reflexivity|]. intros K. apply H. right. exact K.
Qed.

Lemma splitOn_app : forall c a b, ~ In c a -> splitOn c (a ++ c :: b) = a :: splitOn c b.
Proof.
  induction a as [|x a IH]; cbn [splitOn app]; intros b H.
  - rewrite Ascii.eqb_refl. reflexivity.
  - destruct (Ascii.eqb_spec x c) as [->|N]; [exfalso; apply H; left; reflexivity|].
    rewrite IH; [reflexivity|]. intros K. apply H. right. exact K.
Qed.

Lemma splitOn_word : forall c t w, In w (splitOn c t) -> ~ In c w.
Proof.
  induction t as [|x t IH]; cbn [splitOn]; intros w H.
  - destruct H as [<- | []]. intros [].
  - destruct (Ascii.eqb_spec x c) as [->|N].
    + destruct H as [<- | H]; [intros [] | apply IH; exact H].
    + destruct (splitOn c t) as [|v vs] eqn:E.
      * destruct H as [<- | []]. intros [K | []]. congruence.
      * destruct H as [<- | H].
        -- intros [K | K]; [congruence|]. apply (IH v); [left; reflexivity | exact K].
        -- apply IH. right. exact H.
Qed.

Lemma splitOn_mid : forall c a t, exists ws, splitOn c (a ++ c :: t) = ws ++ splitOn c t.
Proof.
  induction a as [|x a IH]; intros t; cbn [app splitOn].
  - rewrite Ascii.eqb_refl. exists [[]]. reflexivity.
  - destruct (IH t) as (ws & E). rewrite E. destruct (Ascii.eqb x c); [exists ([] :: ws); reflexivity|].
    destruct ws as [|w ws]; cbn [app].
    + exfalso. apply (f_equal (@List.length text)) in E. revert E.
      assert (forall a t, List.length (splitOn c (a ++ c :: t)) > List.length (splitOn c t)).
      { clear. induction a as [|y a IH]; intros t; cbn [app splitOn].
        - rewrite Ascii.eqb_refl. cbn. lia.
        - specialize (IH t). destruct (Ascii.eqb y c); [cbn; lia|].
          destruct (splitOn c (a ++ c :: t)); cbn in *; lia. }
      specialize (H a t). cbn. lia.
    + exists ((x :: w) :: ws). reflexivity.
Qed.

(** the words of a split are the maximal stretches without the separator. *)
Lemma splitOn_lines : forall l t, In l (splitOn nl t) <-> lineOf l t.
Proof.
  intros l t. split.
  - intros H. split; [eapply splitOn_word; exact H|].
    revert l H. induction t as [|x t IH]; cbn [splitOn]; intros l H.
    + destruct H as [<- | []]. exists [], []. auto.
    + destruct (Ascii.eqb_spec x nl) as [->|N].
      * destruct H as [<- | H].
        -- exists [], (nl :: t). split; [reflexivity|]. split; [auto|]. right. eauto.
        -- destruct (IH _ H) as (a & b & -> & Ha & Hb). exists (nl :: a), b.
           split; [reflexivity|]. split; [|exact Hb]. right.
           destruct Ha as [-> | (a' & ->)]; [exists [] | exists (nl :: a')]; reflexivity.
      * destruct (splitOn nl t) as [|v vs] eqn:E; [exfalso; eapply splitOn_nil; exact E|].
        assert (Hv : exists b, t = v ++ b /\ (b = [] \/ exists b', b = nl :: b')).
        { clear - E. revert v vs E. induction t as [|y t IH]; cbn [splitOn]; intros v vs E.
          - injection E as <- <-. exists []. auto.
          - destruct (Ascii.eqb_spec y nl) as [->|N].
            + injection E as <- <-. exists (nl :: t). split; [reflexivity | right; eauto].
            + destruct (splitOn nl t) as [|u us] eqn:E2; injection E as <- <-.
              * exfalso; eapply splitOn_nil; exact E2.
              * destruct (IH _ _ eq_refl) as (b & -> & Hb). exists b. split; [reflexivity | exact Hb]. }
        destruct H as [<- | H].
        -- destruct Hv as (b & -> & Hb). exists [], b. split; [reflexivity | auto].
        -- assert (H' : In l vs) by exact H.
           (* a later line: it is preceded by a newline in t *)
           assert (Hl : exists a b, t = (a ++ [nl]) ++ l ++ b /\ (b = [] \/ exists b', b = nl :: b')).
           { clear - E H'. revert v vs E H'. induction t as [|y t IH]; cbn [splitOn]; intros v vs E H'.
             - injection E as <- <-. destruct H'.
             - destruct (Ascii.eqb_spec y nl) as [->|N].
               + injection E as <- E2. subst vs.
                 destruct (splitOn nl t) as [|u us] eqn:E2; [destruct H'|].
                 destruct H' as [<- | H'].
                 * assert (Hu : exists b, t = u ++ b /\ (b = [] \/ exists b', b = nl :: b')).
                   { clear - E2. revert u us E2. induction t as [|y t IH]; cbn [splitOn]; intros v vs E.
                     - injection E as <- <-. exists []. auto.
                     - destruct (Ascii.eqb_spec y nl) as [->|N].
                       + injection E as <- <-. exists (nl :: t). split; [reflexivity | right; eauto].
                       + destruct (splitOn nl t) as [|w ws] eqn:E3; injection E as <- <-.
                         * exfalso; eapply splitOn_nil; exact E3.
                         * destruct (IH _ _ eq_refl) as (b & -> & Hb). exists b. split; [reflexivity | exact Hb]. }
                   destruct Hu as (b & -> & Hb). exists [], b. split; [reflexivity | exact Hb].
                 * destruct (IH _ _ eq_refl H') as (a & b & -> & Hb).
                   exists (nl :: a), b. split; [reflexivity | exact Hb].
               + destruct (splitOn nl t) as [|u us] eqn:E2; injection E as <- <-.
                 * exfalso; eapply splitOn_nil; exact E2.
                 * destruct (IH _ _ eq_refl H') as (a & b & -> & Hb).
                   exists (y :: a), b. split; [reflexivity | exact Hb]. }
           destruct Hl as (a & b & -> & Hb). exists (x :: a ++ [nl]), b.
           split; [reflexivity|]. split; [right; exists (x :: a); reflexivity | exact Hb].
  - intros (Hl & a & b & -> & Ha & Hb).
    assert (K : In l (splitOn nl (l ++ b))).
    { destruct Hb as [-> | (b' & ->)].
      - rewrite app_nil_r, splitOn_none by exact Hl. left; reflexivity.
      - rewrite splitOn_app by exact Hl. left; reflexivity. }
    destruct Ha as [-> | (a' & ->)]; [exact K|].
    rewrite <- app_assoc. cbn [app].
    destruct (splitOn_mid nl a' (l ++ b)) as (ws & E). rewrite E. apply in_or_app. right. exact K.
Qed.

(** ** White space and words *)

Lemma allSpace_app : forall a b, allSpace a -> allSpace b -> allSpace (a ++ b).
Proof. intros a b Ha Hb c H. apply in_app_or in H as [H|H]; auto. Qed.

Lemma fieldsFrom_space : forall sp t, allSpace sp -> fieldsFrom [] (sp ++ t) = fieldsFrom [] t.
Proof.
  induction sp as [|x sp IH]; intros t H; [reflexivity|]. cbn [app fieldsFrom].
  rewrite (H x) by (left; reflexivity). apply IH. intros c Hc. apply H. right. exact Hc.
Qed.

Lemma fieldsFrom_word : forall w cur t, noSpace w -> fieldsFrom cur (w ++ t) = fieldsFrom (cur ++ w) t.
Proof.
  induction w as [|x w IH]; intros cur t H; [rewrite app_nil_r; reflexivity|]. cbn [app fieldsFrom].
  rewrite (H x) by (left; reflexivity). rewrite IH, <- app_assoc; [reflexivity|].
  intros c Hc. apply H. right. exact Hc.
Qed.

Lemma fieldsFrom_gap : forall cur gap t, cur <> [] -> gap <> [] -> allSpace gap ->
  fieldsFrom cur (gap ++ t) = cur :: fieldsFrom [] t.
Proof.
  intros cur [|x gap] t Hc Hg H; [congruence|]. cbn [app fieldsFrom].
  rewrite (H x) by (left; reflexivity). destruct cur as [|y cur]; [congruence|]. f_equal.
  apply fieldsFrom_space. intros c Hc2. apply H. right. exact Hc2.
Qed.

Lemma fieldsFrom_trail : forall t cur sp, allSpace sp -> fieldsFrom cur (t ++ sp) = fieldsFrom cur t.
Proof.
  induction t as [|x t IH]; intros cur sp H.
  - cbn [app]. destruct sp as [|y sp]; [reflexivity|].
    destruct cur as [|z cur].
    + rewrite <- (app_nil_r (y :: sp)). rewrite fieldsFrom_space by exact H. reflexivity.
    + rewrite <- (app_nil_r (y :: sp)). rewrite fieldsFrom_gap; [reflexivity | discriminate | discriminate | exact H].
  - cbn [app fieldsFrom]. destruct (isSpace x); [destruct cur|]; rewrite ?IH by exact H; reflexivity.
Qed.

Lemma trimLeft_decomp : forall t, exists lead, t = lead ++ trimLeft t /\ allSpace lead.
Proof.
  induction t as [|x t IH]; [exists []; split; [reflexivity | intros c []]|].
  cbn [trimLeft]. destruct (isSpace x) eqn:E.
  - destruct IH as (lead & Et & Hl). exists (x :: lead). split; [cbn [app]; congruence|].
    intros c [<- | Hc]; auto.
  - exists []. split; [reflexivity | intros c []].
Qed.

Lemma trimLeft_head : forall t c r, trimLeft t = c :: r -> isSpace c = false.
Proof.
  induction t as [|x t IH]; cbn [trimLeft]; intros c r H; [discriminate|].
  destruct (isSpace x) eqn:E; [eapply IH; exact H|]. injection H as <- <-. exact E.
Qed.

Lemma trim_decomp : forall t, exists lead trail,
  t = lead ++ trimSpace t ++ trail /\ allSpace lead /\ allSpace trail.
Proof.
  intros t. destruct (trimLeft_decomp t) as (lead & Et & Hl).
  destruct (trimLeft_decomp (rev (trimLeft t))) as (tr & Er & Htr).
  exists lead, (rev tr). split; [|split; [exact Hl|]].
  - unfold trimSpace. rewrite <- rev_app_distr, <- Er, rev_involutive. exact Et.
  - intros c Hc. apply Htr. apply in_rev. exact Hc.
Qed.

Lemma trim_head : forall t c r, trimSpace t = c :: r -> isSpace c = false.
Proof.
  intros t c r H. unfold trimSpace in H.
  destruct (trimLeft_decomp (rev (trimLeft t))) as (tr & Er & Htr).
  apply (f_equal (@rev ascii)) in Er. rewrite rev_involutive, rev_app_distr, H in Er.
  eapply trimLeft_head. exact Er.
Qed.

Lemma fields_trim : forall t, fields (trimSpace t) = fields t.
Proof.
  intros t. destruct (trim_decomp t) as (lead & trail & E & H1 & H2).
  unfold fields. rewrite E at 2. rewrite fieldsFrom_space by exact H1.
  rewrite fieldsFrom_trail by exact H2. reflexivity.
Qed.

(** every text is white space, a word, and the rest. *)
Lemma span_space : forall t, exists sp r, t = sp ++ r /\ allSpace sp /\ (r = [] \/ exists c r', r = c :: r' /\ isSpace c = false).
Proof.
  intros t. destruct (trimLeft_decomp t) as (lead & E & H). exists lead, (trimLeft t).
  split; [exact E|]. split; [exact H|]. destruct (trimLeft t) as [|c r] eqn:Et; [auto|].
  right. exists c, r. split; [reflexivity | eapply trimLeft_head; exact Et].
Qed.

Lemma span_word : forall t, exists w r, t = w ++ r /\ noSpace w /\ (r = [] \/ exists c r', r = c :: r' /\ isSpace c = true).
Proof.
  induction t as [|x t IH]; [exists [], []; split; [reflexivity|]; split; [intros c [] | auto]|].
  destruct (isSpace x) eqn:E.
  - exists [], (x :: t). split; [reflexivity|]. split; [intros c [] | right; eauto].
  - destruct IH as (w & r & -> & Hw & Hr). exists (x :: w), r. split; [reflexivity|].
    split; [|exact Hr]. intros c [<- | Hc]; auto.
Qed.

Lemma fields_tail : forall w r, w <> [] -> (r = [] \/ exists c r', r = c :: r' /\ isSpace c = true) ->
  exists more, fieldsFrom w r = w :: more.
Proof.
  intros w r Hw [-> | (c & r' & -> & Hc)].
  - exists []. destruct w; [congruence | reflexivity].
  - cbn [fieldsFrom]. rewrite Hc. destruct w; [congruence|]. eauto.
Qed.

(** ** Lines *)

Lemma readLine_fields : forall kn l,
  readLine kn l =
  match fields l with
  | (c :: a) :: more =>
      if Ascii.eqb c hash then Some kn
      else match more with
           | ident :: _ =>
               match cutPrefix prefix ident with
               | None => None
               | Some rest =>
                   match splitOn colon rest with
                   | pub :: emails :: _ =>
                       Some (KN (hosts kn ++ [KK (c :: a) ed25519 pub emails]) (pub :: pubKeys kn))
                   | _ => None
                   end
               end
           | [] => Some kn
           end
  | _ => Some kn
  end.
Proof.
  intros kn l. unfold readLine. rewrite <- (fields_trim l).
  destruct (trimSpace l) as [|c r] eqn:E; [reflexivity|].
  pose proof (trim_head _ _ _ E) as Hc.
  destruct (span_word (c :: r)) as (w & r' & Ew & Hw & Hr).
  destruct w as [|c' w].
  { cbn [app] in Ew. destruct Hr as [-> | (d & r2 & -> & Hd)]; [discriminate|].
    injection Ew as <- <-. congruence. }
  injection Ew as <- Er.
  assert (F : exists more, fields (c :: r) = (c :: w) :: more).
  { subst r. unfold fields. change (c :: w ++ r') with ((c :: w) ++ r'). rewrite fieldsFrom_word by exact Hw.
    cbn [app]. apply fields_tail; [discriminate | exact Hr]. }
  destruct F as (more & ->). destruct (Ascii.eqb c hash); [reflexivity|].
  destruct more; reflexivity.
Qed.

Lemma cutPrefix_app : forall p t, cutPrefix p (p ++ t) = Some t.
Proof. induction p as [|x p IH]; intros t; [reflexivity|]. cbn [app cutPrefix]. rewrite Ascii.eqb_refl. apply IH. Qed.

Lemma cutPrefix_some : forall p t r, cutPrefix p t = Some r -> t = p ++ r.
Proof.
  induction p as [|x p IH]; intros t r H; cbn [cutPrefix] in H; [injection H as <-; reflexivity|].
  destruct t as [|y t]; [discriminate|]. destruct (Ascii.eqb_spec x y) as [->|]; [|discriminate].
  apply IH in H as ->. reflexivity.
Qed.

Lemma prefix_noSpace : noSpace prefix.
Proof.
  intros c H. assert (forallb (fun c => negb (isSpace c)) prefix = true) by reflexivity.
  rewrite forallb_forall in H0. apply H0 in H. destruct (isSpace c); [discriminate | reflexivity].
Qed.

Lemma noSpace_app : forall a b, noSpace (a ++ b) <-> noSpace a /\ noSpace b.
Proof.
  intros a b. split.
  - intros H. split; intros c Hc; apply H, in_or_app; auto.
  - intros [Ha Hb] c Hc. apply in_app_or in Hc as [Hc|Hc]; auto.
Qed.

(** the word structure of a line. *)
Lemma fields_two : forall l addr ident more, fields l = addr :: ident :: more ->
  exists lead gap r, l = lead ++ addr ++ gap ++ ident ++ r /\ allSpace lead /\ addr <> [] /\ noSpace addr /\
    gap <> [] /\ allSpace gap /\ ident <> [] /\ noSpace ident /\ (r = [] \/ exists c r', r = c :: r' /\ isSpace c = true).
Proof.
  intros l addr ident more H. unfold fields in H.
  destruct (span_space l) as (lead & l1 & -> & Hlead & H1).
  rewrite fieldsFrom_space in H by exact Hlead.
  destruct H1 as [-> | (c1 & l1' & -> & Hc1)]; [discriminate|].
  destruct (span_word (c1 :: l1')) as (w & l2 & Ew & Hw & H2). rewrite Ew in *.
  assert (Nw : w <> []).
  { intros ->. destruct H2 as [-> | (d & r2 & -> & Hd)]; [discriminate|]. injection Ew as <- <-. congruence. }
  rewrite fieldsFrom_word in H by exact Hw. cbn [app] in H.
  destruct H2 as [-> | (c2 & l2' & -> & Hc2)].
  { destruct w; [congruence | discriminate]. }
  destruct (span_space (c2 :: l2')) as (gap & l3 & Eg & Hgap & H3). rewrite Eg in *.
  assert (Ng : gap <> []).
  { intros ->. destruct H3 as [-> | (d & r2 & -> & Hd)]; [discriminate|]. injection Eg as <- <-. congruence. }
  rewrite fieldsFrom_gap in H by assumption. injection H as <- H.
  destruct H3 as [-> | (c3 & l3' & -> & Hc3)]; [discriminate|].
  destruct (span_word (c3 :: l3')) as (v & l4 & Ev & Hv & H4). rewrite Ev in *.
  assert (Nv : v <> []).
  { intros ->. destruct H4 as [-> | (d & r2 & -> & Hd)]; [discriminate|]. injection Ev as <- <-. congruence. }
  rewrite fieldsFrom_word in H by exact Hv. cbn [app] in H.
  destruct (fields_tail v l4 Nv H4) as (m & E). rewrite E in H. injection H as <- <-.
  exists lead, gap, l4. repeat (split; [assumption || reflexivity|]). exact H4.
Qed.

Lemma fields_two_of : forall lead addr gap ident r, allSpace lead -> addr <> [] -> noSpace addr ->
  gap <> [] -> allSpace gap -> ident <> [] -> noSpace ident -> (r = [] \/ exists c r', r = c :: r' /\ isSpace c = true) ->
  exists more, fields (lead ++ addr ++ gap ++ ident ++ r) = addr :: ident :: more.
Proof.
  intros lead addr gap ident r H1 H2 H3 H4 H5 H6 H7 H8. unfold fields.
  rewrite fieldsFrom_space by assumption. rewrite fieldsFrom_word by assumption. cbn [app].
  rewrite fieldsFrom_gap by assumption. rewrite fieldsFrom_word by assumption. cbn [app].
  destruct (fields_tail ident r H6 H8) as (m & ->). eauto.
Qed.

Lemma fields_few : forall l, (fields l = [] -> allSpace l) /\
  (forall w, fields l = [w] -> exists lead trail, l = lead ++ w ++ trail /\ allSpace lead /\ noSpace w /\ allSpace trail).
Proof.
  intros l. unfold fields. destruct (span_space l) as (lead & l1 & -> & Hlead & H1).
  rewrite fieldsFrom_space by exact Hlead.
  destruct H1 as [-> | (c1 & l1' & -> & Hc1)].
  { split; [intros _; rewrite app_nil_r; exact Hlead | intros w H; discriminate]. }
  destruct (span_word (c1 :: l1')) as (w & l2 & Ew & Hw & H2). rewrite Ew.
  assert (Nw : w <> []).
  { intros ->. destruct H2 as [-> | (d & r2 & -> & Hd)]; [discriminate|]. injection Ew as <- <-. congruence. }
  rewrite fieldsFrom_word by exact Hw. cbn [app].
  destruct (fields_tail w l2 Nw H2) as (m & E). split; [intros K; rewrite E in K; discriminate|].
  intros w' K. assert (w' = w) as -> by congruence.
  exists lead, l2. repeat (split; [assumption || reflexivity|]).
  (* what follows a last word is white space *)
  destruct H2 as [-> | (c2 & l2' & -> & Hc2)]; [intros c []|].
  destruct (span_space (c2 :: l2')) as (gap & l3 & Eg & Hgap & H3). rewrite Eg in *.
  assert (Ng : gap <> []).
  { intros ->. destruct H3 as [-> | (d & r2 & -> & Hd)]; [discriminate|]. injection Eg as <- <-. congruence. }
  rewrite fieldsFrom_gap in K by assumption. injection K as K.
  destruct H3 as [-> | (c3 & l3' & -> & Hc3)]; [rewrite app_nil_r; exact Hgap|].
  exfalso. destruct (span_word (c3 :: l3')) as (v & l4 & Ev & Hv & H4). rewrite Ev in *.
  assert (Nv : v <> []).
  { intros ->. destruct H4 as [-> | (d & r2 & -> & Hd)]; [discriminate|]. injection Ev as <- <-. congruence. }
  rewrite fieldsFrom_word in K by exact Hv. cbn [app] in K.
  destruct (fields_tail v l4 Nv H4) as (m' & E'). rewrite E' in K. discriminate.
Qed.

(** [cleanKK k]: an entry that survives writing and reading. *)
Definition cleanKK (k : knownKey) : Prop :=
  kAddr k <> [] /\ noSpace (kAddr k) /\ (forall a, kAddr k <> hash :: a) /\ kType k = ed25519 /\
  noSpace (kPub k) /\ ~ In colon (kPub k) /\ ~ In nl (kEmails k).

Lemma nl_space : isSpace nl = true. Proof. reflexivity. Qed.

(** what a line does to the table: nothing, one clean entry, or an error. *)
Lemma readLine_cases : forall kn l,
  (readLine kn l = Some kn /\ harmless l /\ (forall k, ~ entryFor k l)) \/
  (exists k, readLine kn l = Some (KN (hosts kn ++ [k]) (kPub k :: pubKeys kn)) /\ cleanKK k /\
     entryFor (kPub k) l /\ (forall k', entryFor k' l -> k' = kPub k)) \/
  (readLine kn l = None /\ ~ harmless l /\ (forall k, ~ entryFor k l)).
Proof.
  intros kn l.
  assert (EF : forall k, entryFor k l -> exists c a mail more, fields l = (c :: a) :: (prefix ++ k ++ colon :: mail) :: more /\ c <> hash /\ ~ In colon k).
  { intros k (lead & addr & gap & mail & r & -> & H1 & H2 & H3 & H4 & H5 & H6 & H7 & H8 & H9).
    destruct (fields_two_of lead addr gap (prefix ++ k ++ colon :: mail) r) as (more & E); try assumption.
    - discriminate.
    - apply noSpace_app in H7 as [Ha Hb]. apply noSpace_app. split; [apply prefix_noSpace|].
      apply noSpace_app. split; [exact Ha|]. intros c [<- | Hc]; [reflexivity | auto].
    - destruct addr as [|c a]; [congruence|]. exists c, a, mail, more. split; [exact E|].
      split; [intros ->; eapply H4; reflexivity | exact H8]. }
  assert (HF : harmless l -> (exists k, entryFor k l) \/ fields l = [] \/ (exists a more, fields l = (hash :: a) :: more) \/ exists w, fields l = [w]).
  { intros [H | [(lead & r & -> & H) | (lead & w & trail & -> & H1 & H2 & H3)]].
    - right. left. unfold fields. rewrite <- (app_nil_r l). rewrite fieldsFrom_space by exact H. reflexivity.
    - right. right. left. unfold fields. rewrite fieldsFrom_space by exact H.
      destruct (span_word (hash :: r)) as (w & r' & Ew & Hw & Hr). rewrite Ew.
      rewrite fieldsFrom_word by exact Hw. cbn [app].
      assert (exists a, w = hash :: a) as (a & ->).
      { destruct w as [|c w]; [|injection Ew as <- _; eauto].
        destruct Hr as [-> | (d & r2 & -> & Hd)]; [discriminate|]. cbn [app] in Ew. injection Ew as <- _. discriminate. }
      destruct (fields_tail (hash :: a) r') as (m & ->); [discriminate | exact Hr | eauto].
    - right. unfold fields. rewrite fieldsFrom_space by exact H1. rewrite fieldsFrom_word by exact H2. cbn [app].
      rewrite <- (app_nil_l trail), fieldsFrom_trail by exact H3. cbn [fieldsFrom].
      destruct w; [left; reflexivity | right; right; eauto]. }
  rewrite readLine_fields.
  destruct (fields l) as [|addr more] eqn:F.
  { left. split; [reflexivity|]. split; [left; apply fields_few; exact F|].
    intros k Hk. destruct (EF _ Hk) as (c & a & m & mo & E & _). discriminate. }
  destruct addr as [|c a].
  { exfalso. destruct more as [|i mo].
    - destruct (proj2 (fields_few l) [] F) as (lead & trail & -> & H1 & _ & H3). cbn [app] in F.
      unfold fields in F. rewrite fieldsFrom_space in F by exact H1.
      rewrite <- (app_nil_l trail), fieldsFrom_trail in F by exact H3. discriminate.
    - destruct (fields_two l [] i mo F) as (? & ? & ? & _ & _ & N & _). congruence. }
  destruct (Ascii.eqb_spec c hash) as [->|Nc].
  { left. split; [reflexivity|]. split.
    - right. left. destruct more as [|i mo].
      + destruct (proj2 (fields_few l) _ F) as (lead & trail & -> & H1 & _ & H3).
        exists lead, (a ++ trail). split; [reflexivity | exact H1].
      + destruct (fields_two l _ i mo F) as (lead & gap & r & -> & H1 & _).
        exists lead. eexists. split; [reflexivity | exact H1].
    - intros k Hk. destruct (EF _ Hk) as (c & a' & m & mo & E & N & _). congruence. }
  destruct more as [|ident more].
  { left. split; [reflexivity|]. split.
    - right. right. destruct (proj2 (fields_few l) _ F) as (lead & trail & -> & H1 & H2 & H3).
      exists lead, (c :: a), trail. auto.
    - intros k Hk. destruct (EF _ Hk) as (c' & a' & m & mo & E & _). discriminate. }
  destruct (fields_two l _ _ _ F) as (lead & gap & r & El & H1 & H2 & H3 & H4 & H5 & H6 & H7 & H8).
  assert (BAD : (forall rest, cutPrefix prefix ident = Some rest -> ~ In colon rest) ->
    ~ harmless l /\ forall k, ~ entryFor k l).
  { intros HB.
    assert (NE : forall k, ~ entryFor k l).
    { intros k Hk. destruct (EF _ Hk) as (c' & a' & m & mo & E & _ & _). assert (Ei : ident = prefix ++ k ++ colon :: m) by congruence.
      apply (HB (k ++ colon :: m)); [rewrite Ei; apply cutPrefix_app|]. apply in_or_app. right. left. reflexivity. }
    split; [|exact NE]. intros Hh.
    destruct (HF Hh) as [(k & Hk) | [K | [(a' & mo & K) | (w & K)]]]; try discriminate.
    - exact (NE _ Hk).
    - injection K as K _ _. congruence. }
  destruct (cutPrefix prefix ident) as [rest|] eqn:EC.
  2:{ right. right. split; [reflexivity|]. apply BAD. intros rest K. discriminate. }
  destruct (in_dec ascii_dec colon rest) as [Hin|Hnot].
  2:{ right. right. rewrite splitOn_none by exact Hnot. split; [reflexivity|]. apply BAD.
      intros rest' K. injection K as <-. exact Hnot. }
  right. left.
  assert (exists k mail, rest = k ++ colon :: mail /\ ~ In colon k) as (k & mail & -> & Hk).
  { clear - Hin. induction rest as [|x rest IH]; [destruct Hin|].
    destruct (ascii_dec x colon) as [->|N].
    - exists [], rest. split; [reflexivity | intros []].
    - destruct Hin as [->|Hin]; [congruence|]. destruct (IH Hin) as (k & m & -> & Hk).
      exists (x :: k), m. split; [reflexivity|]. intros [K|K]; [congruence | auto]. }
  apply cutPrefix_some in EC. subst ident.
  rewrite splitOn_app by exact Hk.
  destruct (splitOn colon mail) as [|em ems] eqn:Em; [exfalso; eapply splitOn_nil; exact Em|].
  apply noSpace_app in H7 as [_ H7]. apply noSpace_app in H7 as [Hks Hms].
  exists (KK (c :: a) ed25519 k em). cbn [kPub]. split; [reflexivity|]. split; [|split].
  - unfold cleanKK. cbn [kAddr kType kPub kEmails]. split; [discriminate|]. split; [exact H3|].
    split; [intros a' K; injection K as K _; congruence|]. split; [reflexivity|]. split; [exact Hks|]. split; [exact Hk|].
    intros K.
    assert (forall x, In x em -> In x mail).
    { clear - Em. revert em ems Em. induction mail as [|x mail IH]; cbn [splitOn]; intros em ems E y Hy.
      - injection E as <- <-. destruct Hy.
      - destruct (Ascii.eqb x colon); [injection E as <- <-; destruct Hy|].
        destruct (splitOn colon mail) as [|w ws]; injection E as <- <-.
        + destruct Hy as [<- | []]. left. reflexivity.
        + destruct Hy as [<- | Hy]; [left; reflexivity|]. right. eapply IH; [reflexivity | exact Hy]. }
    pose proof (Hms nl (or_intror (H _ K))). discriminate.
  - exists lead, (c :: a), gap, mail, r. split; [exact El|]. split; [exact H1|]. split; [discriminate|].
    split; [exact H3|]. split; [intros a' K; injection K as K _; congruence|]. split; [exact H4|]. split; [exact H5|].
    split; [|split; [exact Hk | exact H8]]. apply noSpace_app. split; [exact Hks|]. intros x Hx. apply Hms. right. exact Hx.
  - intros k' Hk'. destruct (EF _ Hk') as (c' & a' & m & mo & E & _ & Hk2). assert (E2 : prefix ++ k ++ colon :: mail = prefix ++ k' ++ colon :: m) by congruence.
    apply app_inv_head in E2.
    assert (Hs : splitOn colon (k ++ colon :: mail) = splitOn colon (k' ++ colon :: m)) by congruence.
    rewrite !splitOn_app in Hs by assumption. congruence.
Qed.

(** ** The whole file *)

Definition good (kn : known) : Prop :=
  Forall cleanKK (hosts kn) /\ forall k, In k (pubKeys kn) <-> In k (map kPub (hosts kn)).

Lemma readLines_spec : forall ls kn, good kn ->
  match readLines kn ls with
  | Some kn' => good kn' /\ (forall l, In l ls -> harmless l \/ exists k, entryFor k l) /\
      (forall k, In k (pubKeys kn') <-> In k (pubKeys kn) \/ exists l, In l ls /\ entryFor k l)
  | None => ~ (forall l, In l ls -> harmless l \/ exists k, entryFor k l)
  end.
Proof.
  induction ls as [|l ls IH]; intros kn G; cbn [readLines].
  - split; [exact G|]. split; [intros l []|]. intros k. split; [auto|]. intros [H | (l & [] & _)]; exact H.
  - destruct (readLine_cases kn l) as [(-> & Hh & He) | [(k0 & -> & Hc & He & Hu) | (-> & Hh & He)]].
    + specialize (IH kn G). destruct (readLines kn ls) as [kn'|].
      * destruct IH as (G' & W & L). split; [exact G'|]. split.
        -- intros l' [<- | H]; auto.
        -- intros k. rewrite L. split.
           ++ intros [H | (l' & H & E)]; [auto|]. right. exists l'. split; [right|]; assumption.
           ++ intros [H | (l' & [<- | H] & E)]; [auto | exfalso; eapply He; exact E | eauto].
      * intros H. apply IH. intros l' Hl. apply H. right. exact Hl.
    + assert (G1 : good (KN (hosts kn ++ [k0]) (kPub k0 :: pubKeys kn))).
      { destruct G as [G1 G2]. split; cbn [hosts pubKeys].
        - apply Forall_app. split; [exact G1 | constructor; [exact Hc | constructor]].
        - intros k. rewrite map_app, in_app_iff. cbn [map In]. rewrite G2. tauto. }
      specialize (IH _ G1). destruct (readLines _ ls) as [kn'|].
      * destruct IH as (G' & W & L). split; [exact G'|]. split.
        -- intros l' [<- | H]; [right; eauto | auto].
        -- intros k. rewrite L. cbn [pubKeys In]. split.
           ++ intros [[<- | H] | (l' & H & E)]; [right; exists l; split; [left; reflexivity | exact He] | auto |].
              right. exists l'. split; [right|]; assumption.
           ++ intros [H | (l' & [<- | H] & E)]; [auto | left; left; symmetry; apply Hu; exact E | eauto].
      * intros H. apply IH. intros l' Hl. apply H. right. exact Hl.
    + intros H. destruct (H l (or_introl eq_refl)) as [K | (k & K)]; [auto | eapply He; exact K].
Qed.

Lemma parse_some : forall t kn, parse t = Some kn ->
  good kn /\ WellFormed t /\ forall k, In k (pubKeys kn) <-> Listed t k.
Proof.
  intros t kn H. unfold parse in H.
  assert (G0 : good newKnown) by (split; [constructor | intros k; cbn; tauto]).
  pose proof (readLines_spec (splitOn nl t) newKnown G0) as K. rewrite H in K.
  destruct K as (G & W & L). split; [exact G|]. split.
  - intros l Hl. apply W. apply splitOn_lines. exact Hl.
  - intros k. rewrite L. unfold Listed. cbn [newKnown pubKeys In]. split.
    + intros [[] | (l & Hl & E)]. exists l. split; [apply splitOn_lines|]; assumption.
    + intros (l & Hl & E). right. exists l. split; [apply splitOn_lines|]; assumption.
Qed.

Lemma parse_total : forall t, WellFormed t -> exists kn, parse t = Some kn.
Proof.
  intros t W. unfold parse.
  assert (G0 : good newKnown) by (split; [constructor | intros k; cbn; tauto]).
  pose proof (readLines_spec (splitOn nl t) newKnown G0) as K.
  destruct (readLines newKnown (splitOn nl t)) as [kn|]; [eauto|].
  exfalso. apply K. intros l Hl. apply W. apply splitOn_lines. exact Hl.
Qed.

Lemma parse_none : forall t, parse t = None -> ~ WellFormed t.
Proof. intros t H W. destruct (parse_total t W) as (kn & E). congruence. Qed.

(** [fileText kn]: what WriteOut writes. *)
Definition fileText (hs : list knownKey) : text :=
  header ++ List.concat (map (fun k => kkString k ++ [nl]) hs).

Lemma lines_concat : forall ls, (forall l, In l ls -> ~ In nl l) ->
  splitOn nl (List.concat (map (fun l => l ++ [nl]) ls)) = ls ++ [[]].
Proof.
  induction ls as [|l ls IH]; intros H; [reflexivity|]. cbn [map List.concat].
  rewrite <- app_assoc. cbn [app]. rewrite splitOn_app by (apply H; left; reflexivity).
  rewrite IH; [reflexivity|]. intros l' Hl. apply H. right. exact Hl.
Qed.

Lemma identity_clean : forall k, cleanKK k -> kkString k = kAddr k ++ [blank] ++ (prefix ++ kPub k ++ colon :: kEmails k).
Proof. intros k (_ & _ & _ & E & _). unfold kkString, identityString. rewrite E. reflexivity. Qed.

Lemma noSpace_nl : forall t, noSpace t -> ~ In nl t.
Proof. intros t H K. pose proof (H _ K). discriminate. Qed.

Lemma kkString_nl : forall k, cleanKK k -> ~ In nl (kkString k).
Proof.
  intros k C. rewrite identity_clean by exact C. destruct C as (_ & H1 & _ & _ & H2 & _ & H3).
  intros K. apply in_app_or in K as [K|K]; [exact (noSpace_nl _ H1 K)|].
  apply in_app_or in K as [[K|[]]|K]; [discriminate|].
  apply in_app_or in K as [K|K]; [exact (noSpace_nl _ prefix_noSpace K)|].
  apply in_app_or in K as [K|[K|K]]; [exact (noSpace_nl _ H2 K) | discriminate | exact (H3 K)].
Qed.

Lemma kkString_entry : forall k, cleanKK k -> entryFor (kPub k) (kkString k).
Proof.
  intros k C. rewrite identity_clean by exact C. destruct C as (N & H1 & Hh & _ & H2 & Hc & _).
  destruct (span_word (kEmails k)) as (w & r & E & Hw & Hr). rewrite E.
  exists [], (kAddr k), [blank], w, r. split.
  - cbn [app]. rewrite <- !app_assoc. cbn [app]. reflexivity.
  - split; [intros c []|]. split; [exact N|]. split; [exact H1|]. split; [exact Hh|]. split; [discriminate|].
    split; [intros c [<- | []]; reflexivity|]. split; [apply noSpace_app; auto|]. split; [exact Hc | exact Hr].
Qed.

Lemma fileText_lines : forall hs, Forall cleanKK hs ->
  exists h, header = h ++ [nl] /\ harmless h /\ (forall k, ~ entryFor k h) /\
    splitOn nl (fileText hs) = h :: map kkString hs ++ [[]].
Proof.
  intros hs C. exists (txt "# known_pub_keys file: address pubkey-identity-string").
  split; [reflexivity|]. split; [|split].
  - right. left. exists []. eexists. split; [reflexivity | intros c []].
  - intros k K. destruct (readLine_cases newKnown (txt "# known_pub_keys file: address pubkey-identity-string")) as [(_ & _ & H) | [(k0 & H & _) | (H & _)]].
    + exact (H _ K).
    + discriminate.
    + discriminate.
  - unfold fileText, header. rewrite <- app_assoc. cbn [app]. rewrite splitOn_app.
    + f_equal. rewrite <- (map_map kkString (fun l => l ++ [nl])). apply lines_concat.
      intros l Hl. apply in_map_iff in Hl as (k & <- & Hk). apply kkString_nl.
      rewrite Forall_forall in C. auto.
    + intros K. assert (forallb (fun c => negb (Ascii.eqb c nl)) (txt "# known_pub_keys file: address pubkey-identity-string") = true) by reflexivity.
      rewrite forallb_forall in H. apply H in K. rewrite Ascii.eqb_refl in K. discriminate.
Qed.

Lemma entry_empty : forall k, ~ entryFor k [].
Proof. intros k (lead & addr & gap & mail & r & E & _ & N & _). destruct lead, addr; try discriminate. congruence. Qed.

Lemma entry_unique : forall k k' l, entryFor k l -> entryFor k' l -> k = k'.
Proof.
  intros k k' l H H'. destruct (readLine_cases newKnown l) as [(_ & _ & N) | [(k0 & _ & _ & _ & U) | (_ & _ & N)]].
  - exfalso. exact (N _ H).
  - rewrite (U _ H), (U _ H'). reflexivity.
  - exfalso. exact (N _ H).
Qed.

(** writing clean entries and reading them back. *)
Lemma fileText_listed : forall hs, Forall cleanKK hs ->
  WellFormed (fileText hs) /\ forall k, Listed (fileText hs) k <-> In k (map kPub hs).
Proof.
  intros hs C. destruct (fileText_lines hs C) as (h & _ & Hh & Hn & E).
  assert (C' := C). rewrite Forall_forall in C'.
  split.
  - intros l Hl. apply splitOn_lines in Hl. rewrite E in Hl. destruct Hl as [<- | Hl]; [auto|].
    apply in_app_or in Hl as [Hl | [<- | []]].
    + apply in_map_iff in Hl as (k & <- & Hk). right. exists (kPub k). apply kkString_entry. auto.
    + left. left. intros c [].
  - intros k. split.
    + intros (l & Hl & K). apply splitOn_lines in Hl. rewrite E in Hl. destruct Hl as [<- | Hl]; [exfalso; exact (Hn _ K)|].
      apply in_app_or in Hl as [Hl | [<- | []]]; [|exfalso; exact (entry_empty _ K)].
      apply in_map_iff in Hl as (k0 & <- & Hk). apply in_map_iff. exists k0. split; [|exact Hk].
      eapply entry_unique; [apply kkString_entry; auto | exact K].
    + intros H. apply in_map_iff in H as (k0 & <- & Hk). exists (kkString k0). split.
      * apply splitOn_lines. rewrite E. right. apply in_or_app. left. apply in_map. exact Hk.
      * apply kkString_entry. auto.
Qed.
