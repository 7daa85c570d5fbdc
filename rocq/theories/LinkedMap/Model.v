(** Model of src/buildtool/build_engine/expression/linked_map.hpp and of the map unions in
    src/buildtool/build_engine/expression/evaluator.cpp:391-447. *)
From Coq Require Import String List Bool Arith.
From Verif Require Import Common.Strs.
Import ListNotations.

Section LinkedMap.
Context {V : Type}.

(** [LinkedMap] (linked_map.hpp:305-308): [next_] and [content_] are possibly null pointers to maps
    ([Null]), [map_] is a [std::map]. [Link] is a map object, [Null] the null pointer. The cache
    [items_] (line 310) only memoises [ComputeSortedItems] and is not modelled. *)
Inductive lmap : Type :=
| Null
| Link (next content : lmap) (m : list (string * V)).

Definition IsNotNull (p : lmap) : bool := match p with Null => false | Link _ _ _ => true end.

(** [Find], linked_map.hpp:167-188. *)
Fixpoint Find (p : lmap) (key : string) : option V :=
  match p with
  | Null => None
  | Link next content m =>
      let c := if IsNotNull content then Find content key else alookup key m in
      match c with
      | Some v => Some v
      | None => if IsNotNull next then Find next key else None
      end
  end.

(** [empty], linked_map.hpp:161-165. *)
Fixpoint empty (p : lmap) : bool :=
  match p with
  | Null => true
  | Link next content m =>
      (if IsNotNull content then empty content else match m with [] => true | _ => false end)
      && (negb (IsNotNull next) || empty next)
  end.

(** The merge loop of [ComputeSortedItems], linked_map.hpp:349-368. *)
Fixpoint merge_items (citems : list (string * V)) : list (string * V) -> list (string * V) :=
  match citems with
  | [] => fun nitems => nitems
  | (ck, cv) :: cr =>
      fix inner (nitems : list (string * V)) : list (string * V) :=
        match nitems with
        | [] => citems
        | (nk, nv) :: nr =>
            if String.eqb ck nk then (ck, cv) :: merge_items cr nr
            else if str_ltb ck nk then (ck, cv) :: merge_items cr nitems
            else (nk, nv) :: inner nr
        end
  end.

(** [ComputeSortedItems] / [Items], linked_map.hpp:275-277 and 312-371. *)
Fixpoint Items (p : lmap) : list (string * V) :=
  match p with
  | Null => []
  | Link next content m =>
      merge_items (if IsNotNull content then Items content else m)
                  (if IsNotNull next then Items next else [])
  end.

(** [size], [Keys], [Values], linked_map.hpp:242-244 and 282-303. *)
Definition size (p : lmap) : nat := List.length (Items p).
Definition Keys (p : lmap) : list string := map fst (Items p).
Definition Values (p : lmap) : list V := map snd (Items p).

(** Equality of values, [V::operator==]. *)
Variable veq : V -> V -> bool.

Fixpoint items_eqb (a b : list (string * V)) : bool :=
  match a, b with
  | [], [] => true
  | (k1, v1) :: r1, (k2, v2) :: r2 => String.eqb k1 k2 && veq v1 v2 && items_eqb r1 r2
  | _, _ => false
  end.

(** [operator==], linked_map.hpp:268-272, for two distinct objects (the pointer-equality shortcut
    [this == &other] is the reflexive case). *)
Definition lmap_eqb (a b : lmap) : bool :=
  (empty a && empty b) || items_eqb (Items a) (Items b).

(** The loop of [FindConflictingDuplicate], linked_map.hpp:218-235. *)
Fixpoint find_dup (me : list (string * V)) : list (string * V) -> option string :=
  match me with
  | [] => fun _ => None
  | (mk, mv) :: mr =>
      fix inner (they : list (string * V)) : option string :=
        match they with
        | [] => None
        | (tk, tv) :: tr =>
            if String.eqb mk tk then
              if negb (veq mv tv) then Some mk else find_dup mr tr
            else if str_ltb mk tk then find_dup mr they
            else inner tr
        end
  end.

(** [FindConflictingDuplicate], linked_map.hpp:212-236. *)
Definition FindConflictingDuplicate (a b : lmap) : option string := find_dup (Items a) (Items b).

(** ** Unions of lists of maps, evaluator.cpp:391-447 *)

Definition kEmptyMap : lmap := Link Null Null [].

(** Result of a union: a map, an [EvaluationError], or exhausted fuel (excluded by the theorems). *)
Inductive ures := UOk (m : lmap) | UErr | UFuel.

(** [Union<kDisjoint>(dicts, from, to)], evaluator.cpp:391-434. An entry of [dicts] is [None] if it
    is not a map. *)
Fixpoint union_rec (disjoint : bool) (fuel : nat) (dicts : list (option lmap)) (from to : nat) : ures :=
  match fuel with
  | O => UFuel
  | S fuel' =>
      if Nat.leb to from then UOk kEmptyMap
      else if Nat.eqb to (from + 1) then
        match nth_error dicts from with
        | Some (Some m) => UOk m
        | _ => UErr
        end
      else
        let mid := from + (to - from) / 2 in
        match union_rec disjoint fuel' dicts from mid with
        | UOk l =>
            match union_rec disjoint fuel' dicts mid to with
            | UOk r =>
                if empty l then UOk r
                else if empty r then UOk l
                else if disjoint then
                  match FindConflictingDuplicate l r with
                  | Some _ => UErr
                  | None => UOk (Link l r [])
                  end
                else UOk (Link l r [])
            | e => e
            end
        | e => e
        end
  end.

(** [Union<kDisjoint>(expr)], evaluator.cpp:436-447. *)
Definition Union (disjoint : bool) (dicts : list (option lmap)) : ures :=
  match dicts with
  | [] => UOk kEmptyMap
  | _ => union_rec disjoint (S (List.length dicts)) dicts 0 (List.length dicts)
  end.

End LinkedMap.
Arguments lmap : clear implicits.
Arguments ures : clear implicits.
