(** Model of src/buildtool/build_engine/expression/evaluator.cpp (and function_map.hpp). *)
From Coq Require Import String Ascii List Bool NArith ZArith Arith SpecFloat.
From Verif Require Import Common.Strs LinkedMap.Model Path.Model Expr.Json Expr.Model.
Import ListNotations.
Local Open Scope string_scope.
Local Open Scope list_scope.
Local Infix "^^" := String.append (at level 60, right associativity).

(** Outcome of an evaluation: a value; an exception (all exceptions thrown while evaluating end up in
    the [catch] clauses of [EvaluateExpression], evaluator.cpp:1457-1475, which log a message and
    return null; messages are not modelled); or the model ran out of fuel. *)
Inductive res (A : Type) := Ok (a : A) | Err | OutOfFuel.
Arguments Ok {A} a. Arguments Err {A}. Arguments OutOfFuel {A}.

Definition bind {A B} (r : res A) (f : A -> res B) : res B :=
  match r with Ok a => f a | Err => Err | OutOfFuel => OutOfFuel end.
Notation "x <- r ;; k" := (bind r (fun x => k)) (at level 61, r at next level, right associativity).

Definition mapM {A B} (f : A -> res B) : list A -> res (list B) :=
  fix go (l : list A) : res (list B) :=
    match l with
    | [] => Ok []
    | x :: r => y <- f x ;; ys <- go r ;; Ok (y :: ys)
    end.

Definition foldM {A B} (f : B -> A -> res B) : list A -> B -> res B :=
  fix go (l : list A) (acc : B) : res B :=
    match l with
    | [] => Ok acc
    | x :: r => acc' <- f acc x ;; go r acc'
    end.

(** Casts [String()], [List()], [Map()] throw on values of another type (expression.hpp:104-142). *)
Definition as_str (e : expr) : res string := match e with EStr s => Ok s | _ => Err end.
Definition as_list (e : expr) : res (list expr) := match e with EList l => Ok l | _ => Err end.
Definition as_map (e : expr) : res (list (string * expr)) := match e with EMap m => Ok m | _ => Err end.

(** ** Numbers *)

(** Decimal text of a natural number ([fmt::format("{}", i)]). *)
Fixpoint dec_go (fuel : nat) (n : N) (acc : string) : string :=
  match fuel with
  | O => acc
  | S f =>
      let acc' := String (ascii_of_N (48 + N.modulo n 10)) acc in
      if N.ltb n 10 then acc' else dec_go f (N.div n 10) acc'
  end.
Definition dec (n : N) : string := dec_go (S (N.size_nat n)) n "".

Fixpoint pad0 (k : nat) (s : string) : string :=
  match k with O => s | S k' => String "0" (pad0 k' s) end.
(** [fmt::format("{:010d}", n)]. *)
Definition dec10 (n : N) : string := pad0 (10 - String.length (dec n)) (dec n).

Definition LONG_MAX : Z := 9223372036854775807%Z.
Definition LONG_MIN : Z := (-9223372036854775808)%Z.

(** [std::lround]: nearest integer, ties away from zero. Outside the range of [long] the result is
    unspecified by the standard; the value of glibc on x86-64 (LONG_MIN) is used. *)
Definition lround (n : num) : Z :=
  match n with
  | S754_zero _ => 0%Z
  | S754_finite s m e =>
      let a := match e with
               | Zneg p => ((Zpos m + 2 ^ (Zpos p - 1)) / 2 ^ Zpos p)%Z
               | _ => (Zpos m * 2 ^ e)%Z
               end in
      let v := if s then Z.opp a else a in
      if (Z.leb LONG_MIN v && Z.leb v LONG_MAX)%bool then v else LONG_MIN
  | _ => LONG_MIN
  end.

Definition is_space (c : ascii) : bool :=
  let n := N_of_ascii c in (N.eqb n 32 || (N.leb 9 n && N.leb n 13))%bool.
Definition digit_of (c : ascii) : option Z :=
  let n := N_of_ascii c in
  if (N.leb 48 n && N.leb n 57)%bool then Some (Z.of_N (n - 48)) else None.
Fixpoint skip_spaces (s : string) : string :=
  match s with String c r => if is_space c then skip_spaces r else s | "" => "" end.
Fixpoint digits_val (acc : Z) (s : string) : Z :=
  match s with
  | "" => acc
  | String c r => match digit_of c with Some d => digits_val (10 * acc + d)%Z r | None => acc end
  end.
(** [std::atol] on the C string (a NUL byte is not a digit and ends it); out-of-range values saturate
    as in glibc. *)
Definition atol (s : string) : Z :=
  let t := skip_spaces s in
  let v := match t with
           | String "-" r => Z.opp (digits_val 0 r)
           | String "+" r => digits_val 0 r
           | _ => digits_val 0 t
           end in
  Z.max LONG_MIN (Z.min LONG_MAX v).

Definition num_of_nat (n : nat) : num := binary_normalize prec emax (Z.of_nat n) 0 false.
Definition num_zero : num := S754_zero false.
Definition num_one : num := binary_normalize prec emax 1 0 false.

Section Eval.
(** See [ToHash]: text of numbers and hash function are parameters. *)
Variable ndump : num -> string.
Variable H : string -> string.

Local Notation eqb := (expr_eqb ndump H).

(** [ValueIsTrue], evaluator.cpp:47-67. *)
Definition ValueIsTrue (v : expr) : bool :=
  match v with
  | ENone => false
  | EBool b => b
  | ENum n => negb (SFeqb n num_zero)
  | EStr s => match s with "" => false | _ => true end
  | EList l => match l with [] => false | _ => true end
  | EMap m => match m with [] => false | _ => true end
  | _ => true
  end.

(** [Flatten], evaluator.cpp:69-93. *)
Definition Flatten (e : expr) : res expr :=
  l <- as_list e ;; ls <- mapM as_list l ;; Ok (EList (concat ls)).

Definition as_num (e : expr) : res num := match e with ENum n => Ok n | _ => Err end.

(** [Addition], evaluator.cpp:95-111. *)
Definition Addition (e : expr) : res expr :=
  l <- as_list e ;; ns <- mapM as_num l ;; Ok (ENum (fold_left (SFadd prec emax) ns num_zero)).

(** [Multiplication], evaluator.cpp:113-129. *)
Definition Multiplication (e : expr) : res expr :=
  l <- as_list e ;; ns <- mapM as_num l ;; Ok (ENum (fold_left (SFmul prec emax) ns num_one)).

(** [All], [Any], [Not], evaluator.cpp:131-147, 193-198. *)
Definition All (e : expr) : res expr := l <- as_list e ;; Ok (EBool (forallb ValueIsTrue l)).
Definition Any (e : expr) : res expr := l <- as_list e ;; Ok (EBool (existsb ValueIsTrue l)).
Definition Not (e : expr) : res expr := Ok (EBool (negb (ValueIsTrue e))).

(** [Keys], [Values], evaluator.cpp:200-212. *)
Definition KeysE (e : expr) : res expr := m <- as_map e ;; Ok (EList (map (fun p => EStr (fst p)) m)).
Definition ValuesE (e : expr) : res expr := m <- as_map e ;; Ok (EList (map snd m)).

(** [Enumerate], evaluator.cpp:214-226. *)
Fixpoint enum_from (i : N) (l : list expr) (acc : list (string * expr)) : list (string * expr) :=
  match l with
  | [] => acc
  | x :: r => enum_from (N.succ i) r (ainsert (dec10 i) x acc)
  end.
Definition Enumerate (e : expr) : res expr := l <- as_list e ;; Ok (EMap (enum_from 0 l [])).

(** [Set], evaluator.cpp:228-244. *)
Definition SetE (e : expr) : res expr :=
  l <- as_list e ;; ks <- mapM as_str l ;;
  Ok (EMap (fold_left (fun m k => ainsert k (EBool true) m) ks [])).

(** [Reverse], [Length], evaluator.cpp:246-263. *)
Definition Reverse (e : expr) : res expr := l <- as_list e ;; Ok (EList (rev l)).
Definition Length (e : expr) : res expr := l <- as_list e ;; Ok (ENum (num_of_nat (List.length l))).

(** The loop shared by [NubLeft] and [NubRight]; [seen] compares by [operator==] of [ExpressionPtr]
    ([std::hash<ExpressionPtr>] is a prefix of the same hash). *)
Fixpoint nub_loop (l seen out : list expr) : list expr :=
  match l with
  | [] => rev out
  | x :: r => if existsb (eqb x) seen then nub_loop r seen out else nub_loop r (x :: seen) (x :: out)
  end.

(** [NubRight], evaluator.cpp:265-293. *)
Definition NubRight (e : expr) : res expr :=
  l <- as_list e ;;
  if IsCacheable e then Ok (EList (rev (nub_loop (rev l) [] []))) else Err.

(** [NubLeft], evaluator.cpp:295-322. *)
Definition NubLeft (e : expr) : res expr :=
  l <- as_list e ;;
  if IsCacheable e then Ok (EList (nub_loop l [] [])) else Err.

(** [std::vector<ExpressionPtr>::max_size()] with 16-byte elements: larger [reserve] throws. *)
Definition max_len : Z := 576460752303423487%Z.

(** [Range], evaluator.cpp:324-338: casting a negative [long] to [size_t] adds 2^64. *)
Definition Range (e : expr) : res expr :=
  let len := match e with
             | ENum n => if SFltb num_zero n then lround n else 0%Z
             | EStr s => atol s
             | _ => 0%Z
             end in
  if (Z.ltb len 0 || Z.ltb max_len len)%bool then Err
  else Ok (EList (map (fun i => EStr (dec (N.of_nat i))) (seq 0 (Z.to_nat len)))).

(** [ChangeEndingTo], [BaseName], evaluator.cpp:340-350. *)
Definition ChangeEndingTo (name ending : expr) : res expr :=
  n <- as_str name ;; e <- as_str ending ;;
  Ok (EStr (append (parent_path n) (stem n) ^^ e)).
Definition BaseName (e : expr) : res expr := s <- as_str e ;; Ok (EStr (filename s)).

(** [ShellQuote], evaluator.cpp:352-361. *)
Fixpoint quote_chars (s : string) : string :=
  match s with
  | "" => ""
  | String "'" r => "'\''" ^^ quote_chars r
  | String c r => String c (quote_chars r)
  end.
Definition ShellQuote (s : string) : string := "'" ^^ quote_chars s ^^ "'".

(** [Join<kDoQuote,kAllowString>], evaluator.cpp:363-389. *)
Definition Join (do_quote allow_string : bool) (e : expr) (sep : string) : res string :=
  let q s := if do_quote then ShellQuote s else s in
  match e with
  | EStr s => if allow_string then Ok (q s) else Err
  | EList l => ss <- mapM as_str l ;; Ok (str_concat sep (map q ss))
  | _ => Err
  end.

(** [Union<kDisjoint>(expr)], evaluator.cpp:436-447, through the model of the map classes. *)
Definition entry_map (e : expr) : option (lmap expr) :=
  match e with EMap m => Some (Link Null Null m) | _ => None end.
Definition UnionE (disjoint : bool) (e : expr) : res expr :=
  l <- as_list e ;;
  match Union eqb disjoint (map entry_map l) with
  | UOk r => Ok (EMap (Items r))
  | _ => Err
  end.

(** [ConcatTargetName], evaluator.cpp:449-472. *)
Fixpoint append_last (l : list string) (a : string) : list string :=
  match l with
  | [] => []
  | [x] => [x ^^ a]
  | x :: r => x :: append_last r a
  end.
Definition ConcatTargetName (e : expr) (a : string) : res expr :=
  match e with
  | EStr s => Ok (EStr (s ^^ a))
  | EList l => ss <- mapM as_str l ;; Ok (EList (map EStr (append_last ss a)))
  | _ => Err
  end.

(** ** Functions receiving the evaluator for sub-expressions

    They are called (evaluator.cpp:1504-1511) with an expression that is a map; [m] is its entries. *)

Definition evaluator := expr -> env -> res expr.
Definition function := evaluator -> list (string * expr) -> env -> res expr.

(** [expr->Get(key, default)], expression.hpp:160-176, and [expr[key]], which throws. *)
Definition Get (m : list (string * expr)) (k : string) (d : expr) : expr :=
  match alookup k m with Some v => v | None => d end.
Definition Field (m : list (string * expr)) (k : string) : res expr :=
  match alookup k m with Some v => Ok v | None => Err end.

(** [EvalArgument], evaluator.cpp:474-487. *)
Definition EvalArgument (ev : evaluator) (m : list (string * expr)) (k : string) (c : env) : res expr :=
  a <- Field m k ;; ev a c.

(** [UnaryExpr], evaluator.cpp:489-513. *)
Definition UnaryExpr (f : expr -> res expr) : function := fun ev m c =>
  a <- EvalArgument ev m "$1" c ;; f a.

(** [LogicalAnd], [LogicalOr], evaluator.cpp:149-190. *)
Fixpoint and_loop (ev : evaluator) (c : env) (l : list expr) : res expr :=
  match l with
  | [] => Ok (EBool true)
  | x :: r => v <- ev x c ;; if ValueIsTrue v then and_loop ev c r else Ok (EBool false)
  end.
Fixpoint or_loop (ev : evaluator) (c : env) (l : list expr) : res expr :=
  match l with
  | [] => Ok (EBool false)
  | x :: r => v <- ev x c ;; if ValueIsTrue v then Ok (EBool true) else or_loop ev c r
  end.

(** [AndExpr], [OrExpr], evaluator.cpp:515-535. *)
Definition AndExpr : function := fun ev m c =>
  match alookup "$1" m with
  | Some (EList l) => and_loop ev c l
  | Some _ => UnaryExpr All ev m c
  | None => Ok (EBool true)
  end.
Definition OrExpr : function := fun ev m c =>
  match alookup "$1" m with
  | Some (EList l) => or_loop ev c l
  | Some _ => UnaryExpr Any ev m c
  | None => Ok (EBool false)
  end.

(** [VarExpr], evaluator.cpp:537-545. *)
Definition VarExpr : function := fun ev m c =>
  n <- Field m "name" ;; x <- as_str n ;;
  match env_get c x with
  | ENone => ev (Get m "default" ENone) c
  | v => Ok v
  end.

(** [OnlyInQuasiQuote], evaluator.cpp:547-552. *)
Definition OnlyInQuasiQuote : function := fun _ _ _ => Err.

(** [ExpandQuasiQuoteListEntry] and [ExpandQuasiQuote], evaluator.cpp:558-646. *)
Fixpoint ExpandQuasiQuoteListEntry (ev : evaluator) (c : env) (e : expr) {struct e} : res expr :=
  match e with
  | EList l =>
      ls <- mapM (fun x => y <- ExpandQuasiQuoteListEntry ev c x ;; as_list y) l ;;
      Ok (EList [EList (concat ls)])
  | EMap m =>
      let regular := m' <- mapM (fun p => match p with (k, x) =>
                         y <- ExpandQuasiQuote ev c x ;; Ok (k, y) end) m ;;
                     Ok (EMap (fold_left (fun acc p => ainsert (fst p) (snd p) acc) m' [])) in
      match alookup "type" m with
      | Some (EStr ",") =>
          match alookup "$1" m with
          | None => Ok ENone
          | Some a => v <- ev a c ;; Ok (EList [v])
          end
      | Some (EStr ",@") =>
          match alookup "$1" m with
          | None => Ok (EList [])
          | Some a => v <- ev a c ;; l <- as_list v ;; Ok (EList l)
          end
      | _ => regular
      end
  | _ => Ok (EList [e])
  end
with ExpandQuasiQuote (ev : evaluator) (c : env) (e : expr) {struct e} : res expr :=
  match e with
  | EList l =>
      ls <- mapM (fun x => y <- ExpandQuasiQuoteListEntry ev c x ;; as_list y) l ;;
      Ok (EList (concat ls))
  | EMap m =>
      let regular := m' <- mapM (fun p => match p with (k, x) =>
                         y <- ExpandQuasiQuote ev c x ;; Ok (k, y) end) m ;;
                     Ok (EMap (fold_left (fun acc p => ainsert (fst p) (snd p) acc) m' [])) in
      match alookup "type" m with
      | Some (EStr ",") =>
          match alookup "$1" m with
          | None => Ok ENone
          | Some a => ev a c
          end
      | Some (EStr ",@") => Err
      | _ => regular
      end
  | _ => Ok e
  end.

(** [QuasiQuoteExpr], [QuoteExpr], evaluator.cpp:648-664. *)
Definition QuasiQuoteExpr : function := fun ev m c =>
  match alookup "$1" m with Some e => ExpandQuasiQuote ev c e | None => Ok ENone end.
Definition QuoteExpr : function := fun ev m c =>
  match alookup "$1" m with Some e => Ok e | None => Ok ENone end.

(** [IfExpr], evaluator.cpp:666-673. *)
Definition IfExpr : function := fun ev m c =>
  v <- EvalArgument ev m "cond" c ;;
  if ValueIsTrue v then ev (Get m "then" (EList [])) c else ev (Get m "else" (EList [])) c.

(** [CondExpr], evaluator.cpp:675-698. *)
Fixpoint cond_loop (ev : evaluator) (c : env) (default : res expr) (l : list expr) : res expr :=
  match l with
  | [] => default
  | EList [a; b] :: r => v <- ev a c ;; if ValueIsTrue v then ev b c else cond_loop ev c default r
  | _ :: _ => Err
  end.
Definition CondExpr : function := fun ev m c =>
  let default := ev (Get m "default" (EList [])) c in
  match alookup "cond" m with
  | Some (EList l) => cond_loop ev c default l
  | Some _ => Err
  | None => default
  end.

(** [CaseExpr], evaluator.cpp:700-726. *)
Definition CaseExpr : function := fun ev m c =>
  let default := ev (Get m "default" (EList [])) c in
  match alookup "case" m with
  | Some (EMap cases) =>
      e <- Field m "expr" ;; k <- ev e c ;; s <- as_str k ;;
      match alookup s cases with Some v => ev v c | None => default end
  | Some _ => Err
  | None => default
  end.

(** [SeqCaseExpr], evaluator.cpp:728-760. *)
Fixpoint case_loop (ev : evaluator) (c : env) (default : res expr) (cmp : expr) (l : list expr) : res expr :=
  match l with
  | [] => default
  | EList [a; b] :: r => v <- ev a c ;; if eqb cmp v then ev b c else case_loop ev c default cmp r
  | _ :: _ => Err
  end.
Definition SeqCaseExpr : function := fun ev m c =>
  let default := ev (Get m "default" (EList [])) c in
  match alookup "case" m with
  | Some (EList l) =>
      e <- Field m "expr" ;; cmp <- ev e c ;;
      if IsCacheable cmp then case_loop ev c default cmp l else Err
  | Some _ => Err
  | None => default
  end.

(** [EqualExpr], evaluator.cpp:762-778. *)
Definition EqualExpr : function := fun ev m c =>
  a <- EvalArgument ev m "$1" c ;;
  if IsCacheable a then
    b <- EvalArgument ev m "$2" c ;;
    if IsCacheable b then Ok (EBool (eqb a b)) else Err
  else Err.

(** [ChangeEndingExpr], [JoinExpr], [JoinCmdExpr], [JsonEncodeExpr], evaluator.cpp:780-813. *)
Definition ChangeEndingExpr : function := fun ev m c =>
  n <- ev (Get m "$1" (EStr "")) c ;; e <- ev (Get m "ending" (EStr "")) c ;; ChangeEndingTo n e.
Definition JoinExpr : function := fun ev m c =>
  l <- ev (Get m "$1" (EList [])) c ;; s <- ev (Get m "separator" (EStr "")) c ;;
  sep <- as_str s ;; r <- Join false false l sep ;; Ok (EStr r).
Definition JoinCmdExpr : function := fun ev m c =>
  l <- ev (Get m "$1" (EList [])) c ;; r <- Join true false l " " ;; Ok (EStr r).
Definition JsonEncodeExpr : function := fun ev m c =>
  v <- ev (Get m "$1" (EList [])) c ;;
  let j := ToJson ndump H NullForNonJson v in
  if json_utf8 j then Ok (EStr (dump ndump j)) else Err.

Fixpoint has_char (c : ascii) (s : string) : bool :=
  match s with "" => false | String d r => if Ascii.eqb c d then true else has_char c r end.
(** [EscapeCharsExpr], evaluator.cpp:815-828. The types of [chars] and [escape_prefix] are checked
    only when used. *)
Fixpoint escape_loop (s : string) (chars prefix : expr) : res string :=
  match s with
  | "" => Ok ""
  | String ch r =>
      cs <- as_str chars ;;
      if has_char ch cs then
        p <- as_str prefix ;; t <- escape_loop r chars prefix ;; Ok (p ^^ String ch t)
      else
        t <- escape_loop r chars prefix ;; Ok (String ch t)
  end.
Definition EscapeCharsExpr : function := fun ev m c =>
  s <- ev (Get m "$1" (EStr "")) c ;; cs <- ev (Get m "chars" (EStr "")) c ;;
  p <- ev (Get m "escape_prefix" (EStr "\")) c ;;
  str <- as_str s ;; r <- escape_loop str cs p ;; Ok (EStr r).

(** [LookupExpr], evaluator.cpp:830-848; [IsNotNull] (expression_ptr.cpp:84-87) is false for none. *)
Definition LookupExpr : function := fun ev m c =>
  ke <- Field m "key" ;; k <- ev ke c ;;
  de <- Field m "map" ;; d <- ev de c ;;
  ks <- as_str k ;; dm <- as_map d ;;
  match alookup ks dm with
  | None | Some ENone => ev (Get m "default" ENone) c
  | Some v => Ok v
  end.

(** [ArrayAccessExpr], evaluator.cpp:850-874. *)
Definition ArrayAccessExpr : function := fun ev m c =>
  ke <- Field m "index" ;; k <- ev ke c ;;
  de <- Field m "list" ;; d <- ev de c ;;
  l <- as_list d ;;
  let len := Z.of_nat (List.length l) in
  let index := match k with ENum n => lround n | EStr s => atol s | _ => 0%Z end in
  if (Z.leb 0 index && Z.ltb index len)%bool then Ok (nth (Z.to_nat index) l ENone)
  else if (Z.ltb index 0 && Z.leb 0 (len + index))%bool then Ok (nth (Z.to_nat (len + index)) l ENone)
  else ev (Get m "default" ENone) c.

(** [EmptyMapExpr], [SingletonMapExpr], evaluator.cpp:876-889. *)
Definition EmptyMapExpr : function := fun _ _ _ => Ok (EMap []).
Definition SingletonMapExpr : function := fun ev m c =>
  k <- EvalArgument ev m "key" c ;; v <- EvalArgument ev m "value" c ;;
  s <- as_str k ;; Ok (EMap [(s, v)]).

(** One insertion of [ToSubdirExpr]/[FromSubdirExpr]: fails if the key is present with a value that is
    different or contains names. [overwrite]: [result[new_key] = v] as opposed to [emplace]. *)
Definition stage (overwrite : bool) (acc : list (string * expr)) (k : string) (v : expr)
  : res (list (string * expr)) :=
  match alookup k acc with
  | Some w => if (eqb w v && IsCacheable v)%bool then Ok (if overwrite then ainsert k v acc else acc) else Err
  | None => Ok (ainsert k v acc)
  end.

(** [ToSubdirExpr], evaluator.cpp:891-964. Evaluating "msg" after a conflict cannot avoid the error. *)
Definition subdir_key (flat : bool) (subdir k : string) : string :=
  ToNormalPath (append subdir (if flat then filename k else k)).
Definition ToSubdir (d : list (string * expr)) (subdir : string) (flat : bool) : res expr :=
  r <- foldM (fun acc p => stage flat acc (subdir_key flat subdir (fst p)) (snd p)) d [] ;; Ok (EMap r).
Definition ToSubdirExpr : function := fun ev m c =>
  de <- Field m "$1" ;; d <- ev de c ;;
  s <- ev (Get m "subdir" (EStr ".")) c ;;
  f <- ev (Get m "flat" (EBool false)) c ;;
  subdir <- as_str s ;; dm <- as_map d ;;
  ToSubdir dm subdir (ValueIsTrue f).

(** [FromSubdirExpr], evaluator.cpp:966-991. *)
Definition FromSubdir (d : list (string * expr)) (subdir : string) : res expr :=
  r <- foldM (fun acc p =>
         let np := ToNormalPath (lexically_relative (fst p) subdir) in
         if PathIsNonUpwards np then stage false acc np (snd p) else Ok acc) d [] ;;
  Ok (EMap r).
Definition FromSubdirExpr : function := fun ev m c =>
  de <- Field m "$1" ;; d <- ev de c ;;
  s <- ev (Get m "subdir" (EStr ".")) c ;;
  subdir <- as_str s ;; dm <- as_map d ;;
  FromSubdir dm subdir.

(** [ForeachExpr], evaluator.cpp:993-1012. *)
Definition ForeachExpr : function := fun ev m c =>
  r <- ev (Get m "range" (EList [])) c ;; l <- as_list r ;;
  let var := Get m "var" (EStr "_") in
  let body := Get m "body" (EList []) in
  rs <- mapM (fun x => s <- as_str var ;; ev body (Update1 c s x)) l ;;
  Ok (EList rs).

(** [Expression::kEmptyMapExpr], expression.cpp:26-28. *)
Definition kEmptyMapExpr : expr := EMap [("type", EStr "empty_map")].

(** [ForeachMapExpr], evaluator.cpp:1014-1036. *)
Definition ForeachMapExpr : function := fun ev m c =>
  r <- ev (Get m "range" kEmptyMapExpr) c ;; rm <- as_map r ;;
  let var := Get m "var_key" (EStr "_") in
  let var_val := Get m "var_val" (EStr "$_") in
  let body := Get m "body" (EList []) in
  rs <- mapM (fun p => s <- as_str var ;; t <- as_str var_val ;;
                       ev body (Update1 (Update1 c s (EStr (fst p))) t (snd p))) rm ;;
  Ok (EList rs).

(** [ZipWithExpr], evaluator.cpp:1038-1067. *)
Definition ZipWithExpr : function := fun ev m c =>
  r1 <- ev (Get m "range_1" (EList [])) c ;; l1 <- as_list r1 ;;
  match l1 with
  | [] => Ok (EList [])
  | _ =>
    r2 <- ev (Get m "range_2" (EList [])) c ;; l2 <- as_list r2 ;;
    let var_1 := Get m "var_1" (EStr "$1") in
    let var_2 := Get m "var_2" (EStr "$2") in
    let body := Get m "body" (EList []) in
    rs <- mapM (fun p => s <- as_str var_1 ;; t <- as_str var_2 ;;
                         ev body (Update1 (Update1 c s (fst p)) t (snd p))) (combine l1 l2) ;;
    Ok (EList rs)
  end.

(** [ZipMapExpr], evaluator.cpp:1069-1090. *)
Definition ZipMapExpr : function := fun ev m c =>
  r1 <- ev (Get m "range_key" (EList [])) c ;; l1 <- as_list r1 ;;
  match l1 with
  | [] => Ok (EMap [])
  | _ =>
    r2 <- ev (Get m "range_val" (EList [])) c ;; l2 <- as_list r2 ;;
    rm <- foldM (fun acc p => k <- as_str (fst p) ;; Ok (ainsert k (snd p) acc)) (combine l1 l2) [] ;;
    Ok (EMap rm)
  end.

(** [FoldLeftExpr], evaluator.cpp:1092-1105; the initializer list of the [std::map] keeps the first of
    two equal keys. *)
Definition FoldLeftExpr : function := fun ev m c =>
  let var := Get m "var" (EStr "_") in
  let accum_var := Get m "accum_var" (EStr "$1") in
  re <- Field m "range" ;; r <- ev re c ;;
  start <- ev (Get m "start" (EList [])) c ;;
  let body := Get m "body" (EList []) in
  l <- as_list r ;;
  foldM (fun val x => s <- as_str var ;; t <- as_str accum_var ;;
                      ev body (UpdateMap c (aemplace t val [(s, x)]))) l start.

(** [LetExpr], evaluator.cpp:1107-1161. *)
Definition LetExpr : function := fun ev m c =>
  c' <- match alookup "bindings" m with
        | Some (EList bs) =>
            foldM (fun c' b => match b with
                               | EList [EStr x; e] => v <- ev e c' ;; Ok (Update1 c' x v)
                               | _ => Err
                               end) bs c
        | Some _ => Err
        | None => Ok c
        end ;;
  ev (Get m "body" (EMap [])) c'.

(** [EnvExpr], evaluator.cpp:1163-1183. *)
Definition EnvExpr : function := fun ev m c =>
  match alookup "vars" m with
  | Some (EList vs) => xs <- mapM as_str vs ;; Ok (EMap (Items (Prune c xs)))
  | Some _ => Err
  | None => Ok (EMap [])
  end.

(** [ConcatTargetNameExpr], evaluator.cpp:1185-1192. *)
Definition ConcatTargetNameExpr : function := fun ev m c =>
  p1 <- ev (Get m "$1" (EStr "")) c ;; p2 <- ev (Get m "$2" (EStr "")) c ;;
  a <- Join false true p2 "" ;; ConcatTargetName p1 a.

(** [ContextExpr], evaluator.cpp:1194-1228: both handlers rethrow. *)
Definition ContextExpr : function := fun ev m c => ev (Get m "$1" ENone) c.

(** [DisjointUnionExpr], evaluator.cpp:1230-1281: both handlers rethrow. *)
Definition DisjointUnionExpr : function := fun ev m c =>
  a <- EvalArgument ev m "$1" c ;; if IsCacheable a then UnionE true a else Err.

(** [FailExpr], [AssertExpr], [AssertNonEmptyExpr], evaluator.cpp:1283-1333. *)
Definition FailExpr : function := fun ev m c => _ <- ev (Get m "msg" ENone) c ;; Err.
Definition AssertExpr : function := fun ev m c =>
  e <- Field m "$1" ;; val <- ev e c ;;
  pe <- Field m "predicate" ;; s <- as_str (Get m "var" (EStr "_")) ;;
  pred <- ev pe (Update1 c s val) ;;
  if ValueIsTrue pred then Ok val else Err.
Definition AssertNonEmptyExpr : function := fun ev m c =>
  e <- Field m "$1" ;; val <- ev e c ;;
  match val with
  | EStr (String _ _) | EList (_ :: _) | EMap (_ :: _) => Ok val
  | _ => Err
  end.

(** [kBuiltInFunctions], evaluator.cpp:1335-1388. *)
Definition kBuiltInFunctions : list (string * function) :=
  [("var", VarExpr); ("'", QuoteExpr); ("`", QuasiQuoteExpr);
   (",", OnlyInQuasiQuote); (",@", OnlyInQuasiQuote);
   ("if", IfExpr); ("cond", CondExpr); ("case", CaseExpr); ("case*", SeqCaseExpr);
   ("fail", FailExpr); ("assert", AssertExpr); ("assert_non_empty", AssertNonEmptyExpr);
   ("context", ContextExpr); ("==", EqualExpr); ("and", AndExpr); ("or", OrExpr);
   ("not", UnaryExpr Not); ("++", UnaryExpr Flatten); ("+", UnaryExpr Addition);
   ("*", UnaryExpr Multiplication); ("nub_right", UnaryExpr NubRight);
   ("nub_left", UnaryExpr NubLeft); ("range", UnaryExpr Range);
   ("change_ending", ChangeEndingExpr); ("basename", UnaryExpr BaseName);
   ("join", JoinExpr); ("join_cmd", JoinCmdExpr); ("json_encode", JsonEncodeExpr);
   ("escape_chars", EscapeCharsExpr); ("keys", UnaryExpr KeysE); ("enumerate", UnaryExpr Enumerate);
   ("set", UnaryExpr SetE); ("reverse", UnaryExpr Reverse); ("length", UnaryExpr Length);
   ("values", UnaryExpr ValuesE); ("lookup", LookupExpr); ("[]", ArrayAccessExpr);
   ("empty_map", EmptyMapExpr); ("singleton_map", SingletonMapExpr);
   ("disjoint_map_union", DisjointUnionExpr); ("map_union", UnaryExpr (UnionE false));
   ("to_subdir", ToSubdirExpr); ("from_subdir", FromSubdirExpr); ("foreach", ForeachExpr);
   ("foreach_map", ForeachMapExpr); ("zip_with", ZipWithExpr); ("zip_map", ZipMapExpr);
   ("foldl", FoldLeftExpr); ("let*", LetExpr); ("env", EnvExpr);
   ("concat_target_name", ConcatTargetNameExpr)].

(** The map of functions used by [EvaluateExpression], evaluator.cpp:1453-1456: functions given by the
    caller (rule-specific ones) shadow the built-in ones. *)
Definition find_function (provided : list (string * function)) (name : string) : option function :=
  match alookup name provided with Some f => Some f | None => alookup name kBuiltInFunctions end.

(** [Evaluator::Evaluate], evaluator.cpp:1482-1522. *)
Fixpoint Evaluate (provided : list (string * function)) (fuel : nat) (e : expr) (c : env) : res expr :=
  match fuel with
  | O => OutOfFuel
  | S fuel' =>
      match e with
      | EList l => rs <- mapM (fun x => Evaluate provided fuel' x c) l ;; Ok (EList rs)
      | EMap m =>
          t <- Field m "type" ;; ty <- as_str t ;;
          match find_function provided ty with
          | Some f => f (Evaluate provided fuel') m c
          | None => Err
          end
      | _ => Ok e
      end
  end.

End Eval.
