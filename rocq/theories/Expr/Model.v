(** Model of src/buildtool/build_engine/expression/expression.{hpp,cpp} and configuration.hpp. *)
From Coq Require Import String Ascii List Bool NArith ZArith SpecFloat.
From Verif Require Import Common.Strs LinkedMap.Model Hex.Model Expr.Json.
Import ListNotations.
Local Open Scope string_scope.

(** [Expression] (expression.hpp:270-282). Simplifications: names, artifacts and nodes are represented
    by their JSON description (what [Name().ToJson()], [Artifact().ToJson()], [Node().ToJson()]
    return); a map value is the sorted list of its entries, which by C01 is all that can be observed
    of a [LinkedMap]. The memoised hash and cacheability ([AtomicValue], lines 284-285) are recomputed. *)
Inductive expr :=
| ENone
| EBool (b : bool)
| ENum (n : num)
| EStr (s : string)
| EName (j : json)
| EArt (j : json)
| EResult (stage provides runfiles : expr) (cacheable : bool)
| ENode (j : json) (cacheable : bool)
| EList (l : list expr)
| EMap (m : list (string * expr)).

(** [ComputeIsCacheable], expression.cpp:126-152. *)
Fixpoint IsCacheable (e : expr) : bool :=
  match e with
  | EName _ => false
  | EResult _ _ _ c => c
  | ENode _ c => c
  | EList l => forallb IsCacheable l
  | EMap m => forallb (fun p => match p with (_, v) => IsCacheable v end) m
  | _ => true
  end.

(** [FromJson], expression.cpp:171-206. JSON objects have unique sorted keys in nlohmann::json, so
    emplacing keeps them all. *)
Fixpoint FromJson (j : json) : expr :=
  match j with
  | JNull => ENone
  | JBool b => EBool b
  | JInt z => ENum (binary_normalize prec emax z 0 false)
  | JNum n => ENum n
  | JStr s => EStr s
  | JArr l => EList (map FromJson l)
  | JObj m => EMap (map (fun p => match p with (k, v) => (k, FromJson v) end) m)
  end.

(** [JsonMode], expression.hpp:247-251. *)
Inductive mode := SerializeAll | SerializeAllButNodes | NullForNonJson.

Section Hash.
(** [ndump]: text of finite doubles; [H]: SHA256 as bytes. *)
Variable ndump : num -> string.
Variable H : string -> string.

(** Hash of a node value (the prefix "#" case of [ComputeHash], expression.cpp:242-248, as needed by
    [ToIdentifier] in [ToJson]). *)
Definition node_id (j : json) : string := ToHexString (H ("#" ++ dump ndump j)).

(** [ToJson], expression.cpp:73-124. Object entries in key order. *)
Fixpoint ToJson (md : mode) (e : expr) : json :=
  match e with
  | ENone => JNull
  | EBool b => JBool b
  | ENum n => JNum n
  | EStr s => JStr s
  | EArt j => match md with NullForNonJson => JNull | _ => j end
  | EResult stage provides runfiles _ =>
      match md with
      | NullForNonJson => JNull
      | _ => JObj [("artifact_stage", ToJson SerializeAllButNodes stage);
                   ("provides", ToJson SerializeAllButNodes provides);
                   ("runfiles", ToJson SerializeAllButNodes runfiles)]
      end
  | ENode j _ =>
      match md with
      | NullForNonJson => JNull
      | SerializeAll => j
      | SerializeAllButNodes => JObj [("id", JStr (node_id j)); ("type", JStr "NODE")]
      end
  | EList l => JArr (map (ToJson md) l)
  | EMap m => JObj (map (fun p => match p with (k, v) => (k, ToJson md v) end) m)
  | EName j => match md with NullForNonJson => JNull | _ => j end
  end.

(** [ToString], expression.cpp:154-156. *)
Definition ToString (e : expr) : string := dump ndump (ToJson SerializeAll e).

(** [ComputeHash], expression.cpp:225-270. [dump] throws on strings that are not UTF-8, which inside
    this noexcept function terminates the process; that outcome is not represented here. *)
Fixpoint ToHash (e : expr) : string :=
  match e with
  | EList l => H ("[" ++ String.concat "" (map ToHash l))
  | EMap m => H ("{" ++ String.concat "" (map (fun p => match p with (k, v) => H k ++ ToHash v end) m))
  | EArt _ => H ("@" ++ ToString e)
  | EResult _ _ _ _ => H ("=" ++ ToString e)
  | ENode _ _ => H ("#" ++ ToString e)
  | EName _ => H ("$" ++ ToString e)
  | _ => H (ToString e)
  end.

(** [operator==], expression.hpp:222-226 and expression_ptr.cpp:56-58: equal hashes (pointer equality
    is a shortcut for equal values). *)
Definition expr_eqb (a b : expr) : bool := String.eqb (ToHash a) (ToHash b).

End Hash.

(** ** Configurations, configuration.hpp *)

Definition env := lmap expr.

(** [operator[]], configuration.hpp:51-58. *)
Definition env_get (c : env) (k : string) : expr :=
  match Find c k with Some v => v | None => ENone end.

(** [Prune], configuration.hpp:104-135. *)
Definition Prune (c : env) (vars : list string) : env :=
  Link Null Null
    (fold_left (fun m k => aemplace k (match Find c k with Some v => v | None => ENone end) m) vars []).

(** [Update(name, value)], configuration.hpp:137-145. *)
Definition Update1 (c : env) (k : string) (v : expr) : env := Link c Null [(k, v)].

(** [Update(underlying_map)], configuration.hpp:147-153. *)
Definition UpdateMap (c : env) (m : list (string * expr)) : env :=
  match m with [] => c | _ => Link c Null m end.

(** [Update(ExpressionPtr)], configuration.hpp:155-161. *)
Definition UpdateExpr (c u : env) : env := if empty u then c else Link c u [].

(** [VariableFixed], configuration.hpp:163-165. *)
Definition VariableFixed (c : env) (x : string) : bool :=
  match Find c x with Some _ => true | None => false end.

(** Induction over nested expressions. *)
Section Ind.
Variable P : expr -> Prop.
Hypothesis Hnone : P ENone.
Hypothesis Hbool : forall b, P (EBool b).
Hypothesis Hnum : forall n, P (ENum n).
Hypothesis Hstr : forall s, P (EStr s).
Hypothesis Hname : forall j, P (EName j).
Hypothesis Hart : forall j, P (EArt j).
Hypothesis Hres : forall s p r c, P s -> P p -> P r -> P (EResult s p r c).
Hypothesis Hnode : forall j c, P (ENode j c).
Hypothesis Hlist : forall l, Forall P l -> P (EList l).
Hypothesis Hmap : forall m, Forall (fun p => P (snd p)) m -> P (EMap m).
Fixpoint expr_ind' (e : expr) : P e :=
  match e with
  | ENone => Hnone
  | EBool b => Hbool b
  | ENum n => Hnum n
  | EStr s => Hstr s
  | EName j => Hname j
  | EArt j => Hart j
  | EResult s p r c => Hres s p r c (expr_ind' s) (expr_ind' p) (expr_ind' r)
  | ENode j c => Hnode j c
  | EList l => Hlist l ((fix go (l : list expr) : Forall P l :=
      match l with [] => Forall_nil _ | x :: r => Forall_cons x (expr_ind' x) (go r) end) l)
  | EMap m => Hmap m ((fix go (m : list (string * expr)) : Forall (fun p => P (snd p)) m :=
      match m with [] => Forall_nil _ | (k, v) :: r => Forall_cons (k, v) (expr_ind' v) (go r) end) m)
  end.
End Ind.
