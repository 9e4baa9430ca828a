(** What a user of directory sync expects, said without the model's helpers. *)
From Coq Require Import List ZArith Bool.
Import ListNotations.
From Verif Require Import Dsync_Model.
Local Open Scope Z_scope.

(* The entry's path has no "..", and names this path under top. *)
Definition names (top : path) (e : entry) (p : path) : Prop :=
  exists r, ePath e = map Nm r /\ p = top ++ r.

(* No entry's path has "..": what a giver that runs this code sends. *)
Definition plain (l : list entry) : Prop := forall e, In e l -> exists r, ePath e = map Nm r.

(* p is top or beneath it. *)
Definition inside (top p : path) : Prop := exists r, p = top ++ r.
(* p is strictly beneath q. *)
Definition beneath (q p : path) : Prop := exists n r, p = q ++ n :: r.

(* No path twice. *)
Definition once (l : list entry) : Prop := NoDup (map ePath l).

(* What the giver has at a relative path. *)
Fixpoint at_ (t : tree) (r : path) : option tree :=
  match r with
  | [] => Some t
  | n :: r' =>
      match t with
      | TDir _ kids =>
          (fix look (ks : list (nat * tree)) : option tree :=
             match ks with [] => None | (m, k) :: ks' => if Nat.eqb m n then at_ k r' else look ks' end) kids
      | _ => None
      end
  end.

(* Of every listed path but the top the directory it is in is listed, as a directory. *)
Definition closed (l : list entry) : Prop := forall e r n, In e l -> ePath e = map Nm (r ++ [n]) ->
  exists e', In e' l /\ ePath e' = map Nm r /\ (eKind e' = KLeaf \/ eKind e' = KMid).
(* Beneath every directory with subdirectories there is one without. *)
Definition leafed (l : list entry) : Prop := forall e r, In e l -> ePath e = map Nm r -> eKind e = KMid ->
  exists e' s, In e' l /\ eKind e' = KLeaf /\ ePath e' = map Nm (r ++ s).
(* The top itself is listed, as a directory. *)
Definition topped (l : list entry) : Prop := exists e, In e l /\ ePath e = [] /\ (eKind e = KLeaf \/ eKind e = KMid).
Definition proper (l : list entry) : Prop := plain l /\ once l /\ closed l /\ leafed l /\ topped l.

(* No directory has two entries of one name. *)
Fixpoint distinct (t : tree) : Prop :=
  match t with
  | TDir _ kids => NoDup (map fst kids) /\
      (fix all (ks : list (nat * tree)) : Prop := match ks with [] => True | (_, k) :: ks' => distinct k /\ all ks' end) kids
  | _ => True
  end.

(* What an entry of the listing says of a thing in the giver's tree. *)
Definition describes (e : entry) (t : tree) : Prop :=
  match t with
  | TFile d tm m => eKind e = KFile /\ eSize e = Z.of_nat (length d) /\ eTime e = tm /\ eMode e = m
  | TLink g tm => eKind e = KLink g /\ eTime e = tm
  | TDir m kids => eMode e = m /\
      ((eKind e = KMid /\ exists n m' ks, In (n, TDir m' ks) kids) \/
       (eKind e = KLeaf /\ forall n m' ks, ~ In (n, TDir m' ks) kids))
  end.

(* The giver answers with what its files hold. *)
Definition honest (t : tree) (give : rpath -> list nat) : Prop :=
  forall r d tm m, at_ t r = Some (TFile d tm m) -> give (map Nm r) = d.

(* The taker has nothing, or an empty file, at p. *)
Definition vacant (f : fsys) (p : path) : Prop := get f p = None \/ exists tm m, get f p = Some (NFile [] tm m).

(* A sync of the giver's tree t into top, as the taker sees it: the packs one after the other. *)
Definition synced (msize : entry -> Z) (empty max : Z) (top : path) (dry : bool) (give : rpath -> list nat)
    (fin : entry -> bool) (t : tree) (f g : fsys) : Prop :=
  dirTake top dry give fin f (flat_map pPack (sendListing msize empty max t)) = Some g.
