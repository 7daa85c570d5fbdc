(** Vocabulary for the statements about expressions. *)
From Coq Require Import String Ascii List Bool NArith ZArith Arith SpecFloat.
From Verif Require Import Common.Strs LinkedMap.Model Expr.Json Expr.Model Expr.Eval.
Import ListNotations.
Local Open Scope string_scope.
Local Open Scope list_scope.
Local Infix "^^" := String.append (at level 60, right associativity).

(** Variables named by "var" and "env" expressions anywhere inside an expression. *)
Definition strings_of (l : list expr) : list string :=
  concat (map (fun e => match e with EStr s => [s] | _ => [] end) l).
Definition own_mentions (m : list (string * expr)) : list string :=
  match alookup "type" m with
  | Some (EStr t) =>
      if String.eqb t "var" then
        match alookup "name" m with Some (EStr x) => [x] | _ => [] end
      else if String.eqb t "env" then
        match alookup "vars" m with Some (EList vs) => strings_of vs | _ => [] end
      else []
  | _ => []
  end.
Fixpoint mentions (e : expr) : list string :=
  match e with
  | EList l => concat (map mentions l)
  | EMap m => own_mentions m ++ concat (map (fun p => match p with (_, v) => mentions v end) m)
  | _ => []
  end.

(** Two environments give the variables in [X] the same values (unset counting as null). *)
Definition agree_on (X : string -> Prop) (c1 c2 : env) : Prop := forall x, X x -> env_get c1 x = env_get c2 x.

(** A function supplied by the caller only looks at the environment by evaluating parts of its own
    expression, in environments agreeing where the given ones do. *)
Definition env_respecting (f : function) : Prop :=
  forall (X : string -> Prop) (m : list (string * expr)) (ev1 ev2 : evaluator) (c1 c2 : env),
    (forall x, In x (mentions (EMap m)) -> X x) ->
    (forall e d1 d2, (forall x, In x (mentions e) -> X x) -> agree_on X d1 d2 ->
       ev1 e d1 = OutOfFuel \/ ev1 e d1 = ev2 e d2) ->
    agree_on X c1 c2 ->
    f ev1 m c1 = OutOfFuel \/ f ev1 m c1 = f ev2 m c2.

(** Nesting depth of an expression. *)
Fixpoint depth (e : expr) : nat :=
  match e with
  | EList l => S (list_max (map depth l))
  | EMap m => S (list_max (map (fun p => match p with (_, v) => depth v end) m))
  | _ => 1
  end.

(** ** Shell words: how a POSIX shell splits a command line (XCU 2.2, 2.3) made of unquoted blanks,
    backslashes and single quotes. [None]: unterminated quote. *)
Inductive shell_state := Blank | Word | Quoted.
Fixpoint shell_words (st : shell_state) (cur : string) (s : string) : option (list string) :=
  match s with
  | "" => match st with Blank => Some [] | Word => Some [cur] | Quoted => None end
  | String c r =>
      match st with
      | Quoted => if Ascii.eqb c "'" then shell_words Word cur r
                  else shell_words Quoted (cur ^^ String c "") r
      | _ =>
          if Ascii.eqb c " " then
            match st with
            | Word => match shell_words Blank "" r with Some ws => Some (cur :: ws) | None => None end
            | _ => shell_words Blank "" r
            end
          else if Ascii.eqb c "'" then shell_words Quoted cur r
          else if Ascii.eqb c "\" then
            match r with
            | "" => None
            | String d r' => shell_words Word (cur ^^ String d "") r'
            end
          else shell_words Word (cur ^^ String c "") r
      end
  end.
Definition shell_split (s : string) : option (list string) := shell_words Blank "" s.

(** Removing escape prefixes: a left-to-right reader that, on the prefix, drops it and takes the next
    character literally. *)
Fixpoint unescape (prefix : ascii) (s : string) : string :=
  match s with
  | "" => ""
  | String c r =>
      if Ascii.eqb c prefix then
        match r with
        | "" => String c ""
        | String d r' => String d (unescape prefix r')
        end
      else String c (unescape prefix r)
  end.

(** Maps in a value have unique, ordered keys: the class invariant of [std::map]. *)
Fixpoint wf (e : expr) : Prop :=
  match e with
  | EList l => fold_right (fun x P => wf x /\ P) True l
  | EMap m => sorted_keys m /\ fold_right (fun p P => (match p with (_, v) => wf v end) /\ P) True m
  | EResult a b c _ => wf a /\ wf b /\ wf c
  | _ => True
  end.
