(** Properties C104-C110: directory sync. *)
From Coq Require Import List ZArith Bool Lia Arith Permutation.
Import ListNotations.
From Verif Require Import Dsync_Model Dsync_Spec Dsync_Proofs Dsync_Tree Dsync_Main Dsync_More.
Local Open Scope Z_scope.

(* A small tree: dir 1 with file 2; dir 3 with dir 4 in it; link 5. *)
Definition t1 : tree := TDir 493 [(1, TDir 493 [(2, TFile [7; 8] 5 420)]); (3, TDir 448 [(4, TDir 493 [])]); (5, TLink [9] 6)]%nat.
(* File.Msgsize and PackOfFiles.Msgsize are of this order; UserMaxPayload is 1_200_000. *)
Definition ms (e : entry) : Z := 100 + 5 * Z.of_nat (length (ePath e)).
Definition give1 (p : rpath) : list nat := [7; 8]%nat.
Definition top1 : path := [0]%nat.
Definition f0 : fsys := [([0], NDir 493); ([0; 8], NFile [1] 0 420); ([0; 9], NDir 493); ([0; 9; 1], NFile [] 0 420); ([6], NFile [3] 0 420)]%nat.

Lemma t1_ok : isDir t1 = true /\ distinct t1.
Proof.
  split; [reflexivity|]. cbn. repeat (split || constructor); cbn; intuition discriminate.
Qed.

(** ** C104: the listing is the giver's tree. *)

(** Everything in the giver's tree is in the packs, once, as it is; nothing else is; leaf
    directories come first; only the last pack is marked; no pack is over the limit unless
    it is a single entry. *)
Theorem C104_listing : forall msize empty max t,
  (forall e, 0 <= msize e) -> 0 <= empty -> distinct t ->
  let ps := sendListing msize empty max t in let l := flat_map pPack ps in
  (forall r t', at_ t r = Some t' -> exists e, In e l /\ ePath e = map Nm r /\ describes e t') /\
  (forall e, In e l -> exists r t', ePath e = map Nm r /\ at_ t r = Some t' /\ describes e t') /\
  NoDup (map ePath l) /\
  (exists a b, l = a ++ b /\ (forall e, In e a -> eKind e = KLeaf) /\ (forall e, In e b -> eKind e <> KLeaf)) /\
  (exists a z, ps = a ++ [z] /\ pLast z = true /\ forall x, In x a -> pLast x = false) /\
  (forall x, In x ps -> (length (pPack x) <= 1)%nat \/ empty + fold_right (fun e a => msize e + a) 0 (pPack x) < max).
Proof.
  intros msize empty max t M E D ps l.
  assert (L : l = listing t) by apply sent_all. rewrite L.
  split; [apply listing_at|]. split; [intros e; apply listing_is; exact D|].
  split; [eapply Permutation_NoDup; [apply Permutation_map; symmetry; apply listing_perm|]; exact (visit_once t [] D)|].
  split; [apply listing_split|]. split; [apply packs_last; reflexivity|].
  apply packs_size; auto; cbn; lia.
Qed.
Print Assumptions C104_listing.

Example C104_ex : map (fun e => (ePath e, eKind e)) (flat_map pPack (sendListing ms 20 250 t1)) =
  [([Nm 1], KLeaf); ([Nm 3; Nm 4], KLeaf); ([Nm 1; Nm 2], KFile); ([Nm 5], KLink [9]); ([Nm 3], KMid); ([], KMid)]%nat /\
  length (sendListing ms 20 250 t1) = 4%nat /\ length (sendListing ms 20 1190000 t1) = 1%nat.
Proof. vm_compute. auto. Qed.

(** ** C105: the announced number of bytes. *)

Definition announced (ps : list pof) : Z := fold_right (fun x a => pBytes x + a) 0 ps.
Definition total (l : list entry) : Z := fold_right (fun e a => eSize e + a) 0 l.

(** Right if everything fits into one pack. *)
Theorem C105_one_pack_partial : forall msize empty max t,
  length (sendListing msize empty max t) = 1%nat ->
  announced (sendListing msize empty max t) = total (flat_map pPack (sendListing msize empty max t)).
Proof.
  intros msize empty max t. unfold sendListing. generalize (listing t) as l. intros l.
  assert (X : forall l have cur, pBytes cur = total (pPack cur) -> length (packs msize empty max have cur l) = 1%nat ->
    announced (packs msize empty max have cur l) = total (flat_map pPack (packs msize empty max have cur l))).
  { assert (T : forall a e, total (a ++ [e]) = total a + eSize e) by (unfold total; induction a as [|x a IHa]; intros e; cbn in *; [lia|rewrite IHa; lia]).
    induction l0 as [|e l0 IH]; intros have cur B L.
    - change (pBytes cur + 0 = total (pPack cur ++ [])). rewrite app_nil_r, B. lia.
    - cbn in *. destruct (have + msize e <? max).
      + apply IH; [|exact L]. cbn. rewrite T, B. reflexivity.
      + cbn in L. exfalso. assert (exists a z, packs msize empty max (packSize msize empty [e]) (Pof [e] false 0) l0 = a ++ [z]) as (a & z & Q).
        { destruct (packs_last msize empty max l0 (packSize msize empty [e]) (Pof [e] false 0) eq_refl) as (a & z & Q & _). eauto. }
        rewrite Q, app_length in L. cbn in L. lia. }
  apply X. reflexivity.
Qed.
Print Assumptions C105_one_pack_partial.

Example C105_ex : length (sendListing ms 20 1190000 t1) = 1%nat /\ announced (sendListing ms 20 1190000 t1) = 3.
Proof. vm_compute. auto. Qed.

(** Otherwise the first file of each further pack is left out: 200 files of one byte are
    announced as 199 bytes. *)
Theorem C105_further_packs_refuted : exists t, distinct t /\
  announced (sendListing ms 20 1190000 t) < total (flat_map pPack (sendListing ms 20 1190000 t)).
Proof.
  exists (TDir 493 (map (fun n => (n, TFile [1%nat] 0 420)) (seq 0 200))). split; [|vm_compute; reflexivity].
  cbn [distinct]. split.
  - rewrite map_map. cbn [fst]. rewrite map_id. apply seq_NoDup.
  - generalize (seq 0 200). induction l as [|n l IH]; cbn; auto.
Qed.
Print Assumptions C105_further_packs_refuted.

(** ** C106: nothing outside the target directory is touched. *)

(** For a listing without "..": nothing but the directories above the target, which may be
    made. *)
Theorem C106_inside_partial : forall top dry give fin f l g p,
  plain l -> dirTake top dry give fin f l = Some g ->
  ~ inside top p -> ~ inside p top -> get g p = get f p.
Proof. intros top dry give fin f l g p PL DT. exact (dt_outside _ _ _ _ _ _ _ DT p PL). Qed.
Print Assumptions C106_inside_partial.

Example C106_ex : exists g, dirTake top1 false give1 (fun _ => true) f0 (listing t1) = Some g /\ plain (listing t1) /\
  ~ inside top1 [6]%nat /\ ~ inside [6]%nat top1 /\ get g [6]%nat = Some (NFile [3]%nat 0 420).
Proof.
  eexists. split; [vm_compute; reflexivity|]. split; [apply (listing_proper t1); apply t1_ok|].
  split; [intros [r E]; discriminate|]. split; [intros [r E]; discriminate|]. vm_compute. reflexivity.
Qed.

(** A giver that sends "../7" as a file, or "1/../../7" as a directory, makes the taker
    write there. *)
Theorem C106_dotdot_refuted : exists top give fin f g g',
  dirTake top false give fin f [Ent [] KLeaf 0 0 493; Ent [Up; Nm 7%nat] KFile 2 0 420] = Some g /\
  dirTake top false give fin f [Ent [] KLeaf 0 0 493; Ent [Nm 1%nat; Up; Up; Nm 7%nat] KLeaf 0 0 493] = Some g' /\
  ~ inside top [7%nat] /\ ~ inside [7%nat] top /\ get f [7%nat] = None /\
  get g [7%nat] = Some (NFile [7; 8]%nat 0 420) /\ get g' [7%nat] = Some (NDir 448).
Proof.
  exists top1, give1, (fun _ => true), f0. eexists. eexists. split; [vm_compute; reflexivity|]. split; [vm_compute; reflexivity|].
  split; [intros [r E]; discriminate|]. split; [intros [r E]; discriminate|]. vm_compute. auto.
Qed.
Print Assumptions C106_dotdot_refuted.

(** ** C107: after a sync the taker's files are the giver's. *)

(** If every file of the giver is missing or empty on the taker, or of the same size and
    second there: those that are missing, and the empty ones that differ, arrive. *)
Theorem C107_arrives_partial : forall msize empty max top dry give fin t f g,
  isDir t = true -> distinct t -> honest t give -> synced msize empty max top dry give fin t f g ->
  (forall r d tm m, at_ t r = Some (TFile d tm m) -> vacant f (top ++ r) \/
     exists n, get f (top ++ r) = Some n /\ nSize n = Z.of_nat (length d) /\ nTime n / 1000000000 = tm / 1000000000) ->
  forall r d tm m, at_ t r = Some (TFile d tm m) -> vacant f (top ++ r) ->
  (forall n, get f (top ++ r) = Some n -> d <> [] \/ nTime n / 1000000000 <> tm / 1000000000) ->
  get g (top ++ r) = Some (NFile d tm m).
Proof.
  intros msize empty max top dry give fin t f g ID D HG S OK r d tm m A V DF. unfold synced in S. rewrite sent_all in S.
  destruct (listing_at t r _ A) as (e & I & E & K & SZ & TM & MO).
  assert (HD : give (ePath e) = d) by (rewrite E; apply (HG r d tm m A)).
  rewrite <- HD, <- TM, <- MO. apply (dt_content top dry give fin f g (listing t) S (top ++ r) e).
  - apply listing_proper; assumption.
  - intros e' p' I' K' (r' & E' & ->). destruct (listing_is t e' D I') as (r2 & t2 & E2 & A2 & D2).
    rewrite E' in E2. apply map_Nm_inj in E2. subst r2. destruct t2 as [d2 tm2 m2| |]; cbn in D2.
    + destruct D2 as (_ & S2 & T2 & _). destruct (OK r' d2 tm2 m2 A2) as [B|(n & G & X & Y)]; [left; exact B|].
      right. exists n. unfold second. rewrite S2, T2. auto.
    + destruct D2. congruence.
    + destruct D2 as (_ & [(X & _)|(X & _)]); congruence.
  - exact I.
  - exact K.
  - exists r. auto.
  - exact V.
  - unfold differs. destruct (get f (top ++ r)) as [n|] eqn:G; [|exact Logic.I].
    destruct (DF n eq_refl) as [X|X]; [right|left; unfold second; rewrite TM; exact X].
    destruct V as [V|(tm' & m' & V)]; [congruence|]. rewrite V in G. injection G as <-. cbn. rewrite SZ. destruct d; [congruence|cbn; lia].
Qed.
Print Assumptions C107_arrives_partial.

Example C107_ex : honest t1 give1 /\ (exists g, synced ms 20 1190000 top1 false give1 (fun _ => false) t1 f0 g) /\
  at_ t1 [1; 2]%nat = Some (TFile [7; 8]%nat 5 420) /\ get f0 [0; 1; 2]%nat = None /\
  (forall r d tm m, at_ t1 r = Some (TFile d tm m) -> vacant f0 (top1 ++ r)).
Proof.
  assert (X : forall r d tm m, at_ t1 r = Some (TFile d tm m) -> r = [1; 2]%nat /\ d = [7; 8]%nat).
  { intros r d tm m A. destruct (listing_at t1 r _ A) as (e & I & E & K & _). vm_compute in I.
    repeat (destruct I as [<-|I]; [try discriminate K|]); [|destruct I].
    cbn in E. change [Nm 1%nat; Nm 2%nat] with (map Nm [1; 2]%nat) in E. apply map_Nm_inj in E. subst r. cbn in A. injection A as <- _ _. auto. }
  split; [|split; [|split; [|split]]].
  - intros r d tm m A. destruct (X _ _ _ _ A) as [_ ->]. reflexivity.
  - eexists. vm_compute. reflexivity.
  - reflexivity.
  - reflexivity.
  - intros r d tm m A. destruct (X _ _ _ _ A) as [-> _]. left. reflexivity.
Qed.

(** A file of the taker that is not empty is never changed by a sync that ends without
    an error, whatever the giver's file holds: the assertion before the request to fetch it
    has its test the wrong way round, and the error is dropped. *)
Theorem C107_existing_refuted : forall msize empty max top dry give fin t f g r d tm m d' tm' m',
  isDir t = true -> distinct t -> synced msize empty max top dry give fin t f g ->
  at_ t r = Some (TFile d tm m) -> get f (top ++ r) = Some (NFile d' tm' m') -> d' <> [] ->
  get g (top ++ r) = Some (NFile d' tm' m').
Proof.
  intros msize empty max top dry give fin t f g r d tm m d' tm' m' ID D S A G NE. unfold synced in S. rewrite sent_all in S.
  destruct (listing_at t r _ A) as (e & I & E & K & _).
  apply (dt_stuck top dry give fin f g (listing t) S (top ++ r) e); auto.
  - apply listing_proper; assumption.
  - exists r. auto.
Qed.
Print Assumptions C107_existing_refuted.

Example C107_existing_ex : let f := [([0], NDir 493); ([0; 1], NDir 493); ([0; 1; 2], NFile [1] 0 420)]%nat in
  exists g, synced ms 20 1190000 top1 false give1 (fun _ => true) t1 f g /\ get g [0; 1; 2]%nat = Some (NFile [1]%nat 0 420).
Proof. eexists. split; vm_compute; reflexivity. Qed.

(** And such a file can keep others from arriving: the sync ends without an error, but the
    giver's new file 2 is missing, because file 1 was there with other contents. *)
Theorem C107_others_refuted : exists t top give fin f g,
  isDir t = true /\ distinct t /\ honest t give /\ synced ms 20 1190000 top false give fin t f g /\
  at_ t [2%nat] = Some (TFile [1%nat] 5 420) /\ get f (top ++ [2%nat]) = None /\ get g (top ++ [2%nat]) = None.
Proof.
  exists (TDir 493 [(1, TFile [1] 5 420); (2, TFile [1] 5 420)]%nat), top1, (fun _ => [1%nat]), (fun _ => false),
    [([0], NDir 493); ([0; 1], NFile [2; 3] 0 420)]%nat.
  eexists. split; [reflexivity|]. split; [cbn; repeat (split || constructor); cbn; intuition discriminate|]. split.
  - intros [|a [|b r]] d tm m A; [discriminate| |].
    + cbn in A. destruct a as [|[|[|a]]]; cbn in A; try discriminate; injection A as <- _ _; reflexivity.
    + cbn in A. destruct a as [|[|[|a]]]; cbn in A; discriminate.
  - split; [vm_compute; reflexivity|]. vm_compute. auto.
Qed.
Print Assumptions C107_others_refuted.

(** ** C108: a sync removes what the giver does not have, and nothing else. *)
Theorem C108_gone : forall msize empty max top give fin t f g n r,
  distinct t -> synced msize empty max top false give fin t f g ->
  at_ t (n :: r) = None -> get f (top ++ n :: r) <> None -> get g (top ++ n :: r) = None.
Proof.
  intros msize empty max top give fin t f g n r D S A N. unfold synced in S. rewrite sent_all in S.
  apply (dt_gone top false give fin f g (listing t) S); auto.
  - intros e I. destruct (listing_is t e D I) as (r' & _ & E & _). eauto.
  - exists n, r. reflexivity.
  - intros L. apply (listed_at t top (n :: r) D) in L. contradiction.
Qed.
Print Assumptions C108_gone.

Theorem C108_kept : forall msize empty max top dry give fin t f g r,
  isDir t = true -> distinct t -> synced msize empty max top dry give fin t f g ->
  at_ t r <> None -> get f (top ++ r) <> None -> get g (top ++ r) <> None.
Proof.
  intros msize empty max top dry give fin t f g r ID D S A N. unfold synced in S. rewrite sent_all in S.
  apply (dt_kept top dry give fin f g (listing t) S); auto.
  - apply listing_proper; assumption.
  - apply listed_at; assumption.
Qed.
Print Assumptions C108_kept.

Example C108_ex : exists g, synced ms 20 1190000 top1 false give1 (fun _ => true) t1 f0 g /\
  at_ t1 [9; 1]%nat = None /\ get f0 [0; 9; 1]%nat <> None /\ get g [0; 9; 1]%nat = None /\ get g [0; 8]%nat = None /\
  at_ t1 [] <> None /\ get f0 [0]%nat <> None /\ get g [0]%nat = Some (NDir 493).
Proof. eexists. split; [vm_compute; reflexivity|]. vm_compute. repeat split; discriminate. Qed.

(** ** C109: a dry run changes nothing. *)

(** It removes nothing. *)
Theorem C109_removes_nothing_partial : forall top give fin f l g p,
  dirTake top true give fin f l = Some g -> get f p <> None -> get g p <> None.
Proof. intros top give fin f l g p DT. exact (dt_dry _ _ _ _ _ _ _ DT p eq_refl). Qed.
Print Assumptions C109_removes_nothing_partial.

Example C109_ex : exists g, dirTake top1 true give1 (fun _ => true) f0 (listing t1) = Some g /\ get g [0; 8]%nat = Some (NFile [1]%nat 0 420).
Proof. eexists. split; vm_compute; reflexivity. Qed.

(** But it makes directories, sets modes, puts symlinks in place of files and fetches
    files. *)
Theorem C109_writes_refuted : exists t f g, isDir t = true /\ distinct t /\ synced ms 20 1190000 top1 true give1 (fun _ => true) t f g /\
  get f [0; 1]%nat = None /\ get g [0; 1]%nat = Some (NDir 448) /\
  get f [0; 1; 2]%nat = None /\ get g [0; 1; 2]%nat = Some (NFile [7; 8]%nat 5 420) /\
  get f [0; 5]%nat = Some (NFile [1]%nat 0 420) /\ get g [0; 5]%nat = Some (NLink [9]%nat 6) /\
  get f [0]%nat = Some (NDir 511) /\ get g [0]%nat = Some (NDir 493).
Proof.
  exists t1, [([0], NDir 511); ([0; 5], NFile [1] 0 420)]%nat. eexists.
  split; [apply t1_ok|]. split; [apply t1_ok|]. split; [vm_compute; reflexivity|]. vm_compute. auto 10.
Qed.
Print Assumptions C109_writes_refuted.

(** ** C110: directories get the giver's permissions. *)

(** Those with subdirectories. *)
Theorem C110_mid_partial : forall msize empty max top dry give fin t f g r m kids n m' ks,
  isDir t = true -> distinct t -> synced msize empty max top dry give fin t f g ->
  at_ t r = Some (TDir m kids) -> In (n, TDir m' ks) kids -> top ++ r <> [] -> get g (top ++ r) = Some (NDir m).
Proof.
  intros msize empty max top dry give fin t f g r m kids n m' ks ID D S A SUB NE. unfold synced in S. rewrite sent_all in S.
  destruct (listing_at t r _ A) as (e & I & E & M & [(K & _)|(_ & X)]); [|destruct (X _ _ _ SUB)].
  rewrite <- M. apply (dt_mid top dry give fin f g (listing t) S); auto; [apply listing_proper; assumption|exists r; auto].
Qed.
Print Assumptions C110_mid_partial.

Example C110_ex : exists g, synced ms 20 1190000 top1 false give1 (fun _ => true) t1 f0 g /\
  at_ t1 [3]%nat = Some (TDir 448 [(4%nat, TDir 493 [])]) /\ get g [0; 3]%nat = Some (NDir 448) /\ get g [0; 1]%nat = Some (NDir 448).
Proof. eexists. split; [vm_compute; reflexivity|]. vm_compute. auto. Qed.

(** One without subdirectories that the taker does not have is always made with 0700. *)
Theorem C110_leaf_refuted : forall msize empty max top dry give fin t f g r m kids,
  isDir t = true -> distinct t -> synced msize empty max top dry give fin t f g ->
  at_ t r = Some (TDir m kids) -> (forall n m' ks, ~ In (n, TDir m' ks) kids) -> top ++ r <> [] ->
  get f (top ++ r) = None -> get g (top ++ r) = Some (NDir 448).
Proof.
  intros msize empty max top dry give fin t f g r m kids ID D S A SUB NE G. unfold synced in S. rewrite sent_all in S.
  destruct (listing_at t r _ A) as (e & I & E & M & [(_ & n & m' & ks & X)|(K & _)]); [destruct (SUB _ _ _ X)|].
  apply (dt_leaf top dry give fin f g (listing t) S (top ++ r) e); auto; [apply listing_proper; assumption|exists r; auto].
Qed.
Print Assumptions C110_leaf_refuted.
