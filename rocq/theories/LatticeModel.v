(** BinLatticePartition (geomc/shape/BinLatticePartition.h).  The std::unordered_multimap is the list of its entries in the order
    in which it is iterated; that order is arbitrary, except that entries of equal keys are adjacent.  find returns the first entry
    of its key in that order (as the implementations do; the standard promises only one of them).
    Coordinates are reals, index_t is Z: a quotient that does not fit is undefined in C++ and not modelled.
    Points and bins are lists of coordinates.  Not modelled: query of a Rect (276-278) and N = 1 do not compile. *)
From Coq Require Import Reals ZArith List Bool.
Import ListNotations.

(** std::floor, std::ceil and the conversion to index_t. *)
Definition floorZ (x : R) : Z := Int_part x.
Definition ceilZ (x : R) : Z := (- Int_part (- x))%Z.
Definition bin := list Z.
Definition point := list R.
Fixpoint bin_eqb (a b : bin) : bool :=
  match a, b with [], [] => true | x :: a, y :: b => Z.eqb x y && bin_eqb a b | _, _ => false end.
(** BinLatticePartition.h:300-302: binOf. *)
Definition bin_of (cellsize : R) (p : point) : bin := map (fun x => floorZ (x / cellsize)%R) p.
(** BinLatticePartition.h:306-312: binRegion. *)
Definition bin_lo (cellsize : R) (lo : point) : bin := map (fun x => floorZ (x / cellsize)%R) lo.
Definition bin_hi (cellsize : R) (hi : point) : bin := map (fun x => ceilZ (x / cellsize)%R) hi.
Section Items.
Context {V : Type}.
Definition item : Type := point * V.
Definition entry : Type := bin * item.
Definition cells := list entry.
(** BinLatticePartition.h:252-255: the entry that insert adds. *)
Definition entry_of (cellsize : R) (p : point) (v : V) : entry := (bin_of cellsize p, (p, v)).
(** unordered_multimap::find: an iterator is the rest of the list. *)
Fixpoint find_cell (m : cells) (b : bin) : option cells :=
  match m with
  | [] => None
  | e :: r => if bin_eqb (fst e) b then Some m else find_cell r b
  end.
(** BinLatticePartition.h:202-214: the next cell of the block; None when every axis rolled over. *)
Fixpoint next_cell (cur lo hi : bin) : option bin :=
  match cur, lo, hi with
  | c :: cur, l :: lo, h :: hi => if (h <=? c + 1)%Z then match next_cell cur lo hi with Some r => Some (l :: r) | None => None end else Some ((c + 1)%Z :: cur)
  | _, _, _ => None
  end.
(** BinLatticePartition.h:197-226: gotoNextNonemptyCell; [Some None] if there is none, None when out of fuel. *)
Fixpoint goto_next (m : cells) (fuel : nat) (cur lo hi : bin) : option (option cells) :=
  match fuel with
  | O => None
  | S fuel =>
      match next_cell cur lo hi with
      | None => Some None
      | Some c => match find_cell m c with Some i => Some (Some i) | None => goto_next m fuel c lo hi end
      end
  end.
(** BinLatticePartition.h:120-128: the constructor of an iterator. *)
Definition start (m : cells) (fuel : nat) (lo hi : bin) : option (option cells) :=
  match find_cell m lo with Some i => Some (Some i) | None => goto_next m fuel lo lo hi end.
(** BinLatticePartition.h:168-178: increment; an iterator that is off the end stays. *)
Definition increment (m : cells) (fuel : nat) (lo hi : bin) (i : option cells) : option (option cells) :=
  match i with
  | None | Some [] => Some i
  | Some (e :: r) =>
      match r with
      | e' :: _ => if bin_eqb (fst e') (fst e) then Some (Some r) else goto_next m fuel (fst e) lo hi
      | [] => goto_next m fuel (fst e) lo hi
      end
  end.
(** The loop of a user: visit every item from an iterator until it is off the end. *)
Fixpoint visit (m : cells) (fuel : nat) (lo hi : bin) (steps : nat) (i : option cells) : option (list item) :=
  match steps with
  | O => None
  | S steps =>
      match i with
      | None | Some [] => Some []
      | Some (e :: _) =>
          match increment m fuel lo hi i with
          | None => None
          | Some i => match visit m fuel lo hi steps i with Some r => Some (snd e :: r) | None => None end
          end
      end
  end.
Definition region_items (m : cells) (fuel : nat) (lo hi : bin) : option (list item) :=
  match start m fuel lo hi with None => None | Some i => visit m fuel lo hi (S (length m)) i end.
(** BinLatticePartition.h:280-285: query of a point and radius.  [fuel] bounds the number of cells of the block. *)
Definition query_near (cellsize : R) (m : cells) (fuel : nat) (p : point) (radius : R) : option (list item) :=
  region_items m fuel (bin_lo cellsize (map (fun x => x - radius)%R p)) (bin_hi cellsize (map (fun x => x + radius)%R p)).
(** BinLatticePartition.h:287-289, 270-272: size and clear. *)
Definition size (m : cells) : nat := length m.
Definition clear (m : cells) : cells := [].
End Items.
Arguments item : clear implicits.
Arguments entry : clear implicits.
Arguments cells : clear implicits.
