(** Vocabulary for single operations. *)
From Coq Require Import String Ascii List Bool NArith ZArith Arith SpecFloat.
From Verif Require Import Common.Strs LinkedMap.Model Expr.Json Expr.Model Expr.Eval.
Import ListNotations.
Local Open Scope string_scope.
Local Open Scope list_scope.

(** [r] consists of the elements of [l] at the positions satisfying [keep], in order. *)
Definition subsequence_at {A} (keep : nat -> Prop) (l r : list A) : Prop :=
  exists ps, (forall i j a b, i < j -> nth_error ps i = Some a -> nth_error ps j = Some b -> a < b) /\
    (forall p, In p ps <-> p < List.length l /\ keep p) /\
    map (nth_error l) ps = map Some r.

(** No map with a "type" that is an escape marker of quasi-quotation occurs in the expression. *)
Definition marker (m : list (string * expr)) : bool :=
  match alookup "type" m with
  | Some (EStr t) => (String.eqb t "," || String.eqb t ",@")%bool
  | _ => false
  end.
Fixpoint unmarked (e : expr) : bool :=
  match e with
  | EList l => forallb unmarked l
  | EMap m => (negb (marker m) && forallb (fun p => match p with (_, v) => unmarked v end) m)%bool
  | _ => true
  end.
(** No list in the expression has a map as an element. *)
Definition is_map (e : expr) : bool := match e with EMap _ => true | _ => false end.
Fixpoint no_map_in_list (e : expr) : bool :=
  match e with
  | EList l => forallb (fun x => (negb (is_map x) && no_map_in_list x)%bool) l
  | EMap m => forallb (fun p => match p with (_, v) => no_map_in_list v end) m
  | _ => true
  end.

(** The value denoted by a string of decimal digits. *)
Fixpoint decimal_value (acc : N) (s : string) : option N :=
  match s with
  | "" => Some acc
  | String c r =>
      let n := N_of_ascii c in
      if (N.leb 48 n && N.leb n 57)%bool then decimal_value (10 * acc + (n - 48)) r else None
  end.

(** The expression {"type": ty, "$1": e}. *)
Definition call (ty : string) (e : expr) : expr := EMap [("$1", e); ("type", EStr ty)].
(** The caller of the evaluator does not redefine the built-in [ty]. *)
Definition not_shadowed (provided : list (string * function)) (ty : string) : Prop := alookup ty provided = None.

(** Two entries of a stage land on the same new path, and the later one is not an equal value free of
    names. *)
Definition clash (eqb : expr -> expr -> bool) (new_path : string -> string) (d : list (string * expr)) : Prop :=
  exists k1 v1 k2 v2, In (k1, v1) d /\ In (k2, v2) d /\ str_lt k1 k2 /\ new_path k1 = new_path k2 /\
    (eqb v1 v2 && IsCacheable v2)%bool = false.
(** [r] has, at the new path of every entry of [d], that entry's value, and nothing else. *)
Definition staged (eqb : expr -> expr -> bool) (new_path : string -> string) (d r : list (string * expr)) : Prop :=
  sorted_keys r /\
  (forall p w, alookup p r = Some w -> exists k, In (k, w) d /\ new_path k = p) /\
  (forall k v, In (k, v) d -> exists w, alookup (new_path k) r = Some w /\ eqb w v = true).

(** Elements kept by nub_left / nub_right: no equal element before / after. *)
Definition first_occurrence (eqb : expr -> expr -> bool) (l : list expr) (p : nat) : Prop :=
  forall q x y, q < p -> nth_error l q = Some x -> nth_error l p = Some y -> eqb y x = false.
Definition last_occurrence (eqb : expr -> expr -> bool) (l : list expr) (p : nat) : Prop :=
  forall q x y, p < q -> nth_error l q = Some x -> nth_error l p = Some y -> eqb y x = false.

(** Values json_encode represents faithfully: no names, artifacts, results or nodes. *)
Fixpoint json_value (e : expr) : bool :=
  match e with
  | ENone | EBool _ | ENum _ | EStr _ => true
  | EList l => forallb json_value l
  | EMap m => forallb (fun p => match p with (_, v) => json_value v end) m
  | _ => false
  end.
