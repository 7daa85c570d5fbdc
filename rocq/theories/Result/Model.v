(** Model of src/buildtool/build_engine/expression/target_result.{hpp,cpp}, target_node.{hpp,cpp} and
    src/buildtool/storage/target_cache_entry.cpp: the JSON form in which the result of a target is kept
    in the target cache.

    Failures: a null [ExpressionPtr], a thrown exception and a failed check all are [None] here; the
    code turns them into [std::nullopt], except that members missing in a hand-made description are
    undefined behaviour ([operator[]] of a constant JSON value), which is also [None] here. The reader
    follows references between nodes; as a hand-made description can be cyclic, in which case the code
    recurses without end, it gets fuel, and running out of it is [None] too. *)
From Coq Require Import String Ascii List Bool NArith ZArith SpecFloat.
From Verif Require Import Common.Strs Hex.Model Expr.Json Expr.Model Describe.Model.
Import ListNotations.
Local Open Scope string_scope.
Local Open Scope list_scope.

(** Values with artifacts and nodes spelled out: [Expression] (expression.hpp:270-282), [TargetNode]
    (target_node.hpp:24-98: value and abstract nodes), [TargetResult] (target_result.hpp:28-32). Map
    values are their sorted list of entries (all that can be observed of a [LinkedMap], C01). *)
Inductive value :=
| VNone
| VBool (b : bool)
| VNum (n : num)
| VStr (s : string)
| VName (j : json)
| VArt (a : artifact)
| VResult (stage provides runfiles : value) (cacheable : bool)
| VNodeValue (v : value)
| VNodeAbstract (node_type : string) (string_fields target_fields : value)
| VList (l : list value)
| VMap (m : list (string * value)).

Section Hash.
Variable ndump : num -> string.
Variable H : string -> string.

(** The value in the model of expression.cpp, with artifacts and nodes as their JSON descriptions:
    [Artifact().ToJson()], [TargetNode::ToJson] (target_node.cpp:23-34) and [TargetNode::IsCacheable]
    (target_node.hpp:36-45, target_node.cpp:19-21). *)
Fixpoint embed (v : value) : expr :=
  match v with
  | VNone => ENone
  | VBool b => EBool b
  | VNum n => ENum n
  | VStr s => EStr s
  | VName j => EName j
  | VArt a => EArt (art_ToJson a)
  | VResult s p r c => EResult (embed s) (embed p) (embed r) c
  | VNodeValue v =>
      ENode (JObj [("result", Expr.Model.ToJson ndump H SerializeAll (embed v)); ("type", JStr "VALUE_NODE")])
            (IsCacheable (embed v))
  | VNodeAbstract t sf tf =>
      ENode (JObj [("node_type", JStr t);
                   ("string_fields", Expr.Model.ToJson ndump H SerializeAll (embed sf));
                   ("target_fields", Expr.Model.ToJson ndump H SerializeAllButNodes (embed tf));
                   ("type", JStr "ABSTRACT_NODE")])
            (IsCacheable (embed tf))
  | VList l => EList (map embed l)
  | VMap m => EMap (map (fun p => match p with (k, x) => (k, embed x) end) m)
  end.

(** [ToHexString(expr->ToHash())], target_result.cpp:84. *)
Definition vid (v : value) : string := ToHexString (ToHash ndump H (embed v)).

(** [expr->ToJson()]. *)
Definition value_ToJson (v : value) : json := Expr.Model.ToJson ndump H SerializeAll (embed v).

(** The replacements, an [unordered_map] from artifact descriptions, which are compared by identifier. *)
Definition replacements := list (artifact * object_info).
Fixpoint find_replacement (r : replacements) (a : artifact) : option object_info :=
  match r with
  | [] => None
  | (b, i) :: r' => if art_eqb ndump H a b then Some i else find_replacement r' a
  end.

(** [ArtifactDescription::IsKnown]. *)
Definition is_known (a : artifact) : bool := match a with AKnown _ _ _ => true | _ => false end.

(** [SerializeArtifactDescription], target_result.cpp:41-59. *)
Definition ser_artifact (r : replacements) (v : value) : option json :=
  match r with
  | [] => Some (value_ToJson v)
  | _ =>
      match v with
      | VArt a =>
          if is_known a then Some (value_ToJson v)
          else match find_replacement r a with
               | Some i => Some (art_ToJson (AKnown (i_digest i) (i_type i) None))
               | None => None
               end
      | _ => None
      end
  end.

(** What [SerializeExpression] collects: the map [nodes] and the three lists of hashes. *)
Record collected := mkC {
  nodes : list (string * json);
  provided_artifacts : list string;
  provided_nodes : list string;
  provided_results : list string
}.
Definition empty_collected : collected := mkC [] [] [] [].

Definition add_node (id : string) (j : json) (c : collected) : collected :=
  mkC (ainsert id j (nodes c)) (provided_artifacts c) (provided_nodes c) (provided_results c).
Definition note_artifact (id : string) (c : collected) : collected :=
  mkC (nodes c) (provided_artifacts c ++ [id]) (provided_nodes c) (provided_results c).
Definition note_node (id : string) (c : collected) : collected :=
  mkC (nodes c) (provided_artifacts c) (provided_nodes c ++ [id]) (provided_results c).
Definition note_result (id : string) (c : collected) : collected :=
  mkC (nodes c) (provided_artifacts c) (provided_nodes c) (provided_results c ++ [id]).

Section Iter.
Variable f : value -> collected -> option (string * collected).
Fixpoint ser_list (l : list value) (c : collected) : option (list string * collected) :=
  match l with
  | [] => Some ([], c)
  | v :: l' =>
      obind (f v c) (fun r => obind (ser_list l' (snd r)) (fun r' => Some (fst r :: fst r', snd r')))
  end.
Fixpoint ser_map (m : list (string * value)) (c : collected) : option (list (string * string) * collected) :=
  match m with
  | [] => Some ([], c)
  | (k, v) :: m' =>
      obind (f v c) (fun r => obind (ser_map m' (snd r)) (fun r' => Some ((k, fst r) :: fst r', snd r')))
  end.
End Iter.

(** [SerializeExpression], target_result.cpp:75-185. *)
Fixpoint ser (r : replacements) (v : value) (c : collected) {struct v} : option (string * collected) :=
  let id := vid v in
  match alookup id (nodes c) with
  | Some _ => Some (id, c)
  | None =>
      obind
        (match v with
         | VMap m =>
             obind (ser_map (ser r) m c) (fun x =>
               Some (JObj (map (fun p => match p with (k, h) => (k, JStr h) end) (fst x)), snd x))
         | VList l =>
             obind (ser_list (ser r) l c) (fun x => Some (JArr (map JStr (fst x)), snd x))
         | VNodeValue w =>
             obind (ser r w (note_node id c)) (fun x =>
               Some (JObj [("result", JStr (fst x)); ("type", JStr "VALUE_NODE")], snd x))
         | VNodeAbstract t sf tf =>
             obind (ser r sf (note_node id c)) (fun x =>
             obind (ser r tf (snd x)) (fun y =>
               Some (JObj [("node_type", JStr t); ("string_fields", JStr (fst x));
                           ("target_fields", JStr (fst y)); ("type", JStr "ABSTRACT_NODE")], snd y)))
         | VResult s p rf _ =>
             obind (ser r s (note_result id c)) (fun x =>
             obind (ser r rf (snd x)) (fun y =>
             obind (ser r p (snd y)) (fun z =>
               Some (JObj [("artifact_stage", JStr (fst x)); ("provides", JStr (fst z));
                           ("runfiles", JStr (fst y))], snd z))))
         | VArt _ => obind (ser_artifact r v) (fun j => Some (j, note_artifact id c))
         | _ => Some (value_ToJson v, c)
         end)
        (fun x => Some (id, add_node id (fst x) (snd x)))
  end.

(** [SerializeArtifactMap], target_result.cpp:335-350. *)
Definition ser_artifact_map (r : replacements) (v : value) : option json :=
  match r with
  | [] => Some (value_ToJson v)
  | _ =>
      match v with
      | VMap m =>
          obind (all_some (map (fun p => match p with (k, x) =>
                                  option_map (fun j => (k, j)) (ser_artifact r x) end) m))
                (fun l => Some (JObj l))
      | _ => None
      end
  end.

(** [SerializeProvidesMap], target_result.cpp:372-393. *)
Definition ser_provides (r : replacements) (v : value) : option json :=
  obind (ser r v empty_collected) (fun x =>
    Some (JObj [("entry", JStr (fst x)); ("nodes", JObj (nodes (snd x)));
                ("provided_artifacts", strings_json (provided_artifacts (snd x)));
                ("provided_nodes", strings_json (provided_nodes (snd x)));
                ("provided_results", strings_json (provided_results (snd x)))])).

(** [SerializeTargetResultWithReplacement], target_result.cpp:420-429, which is [TargetResult::ToJson]
    (433-435) without replacements, and [ReplaceNonKnownAndToJson] (437-448). *)
Definition result_ToJson (r : replacements) (stage provides runfiles : value) : option json :=
  obind (ser_artifact_map r stage) (fun a =>
  obind (ser_artifact_map r runfiles) (fun f =>
  obind (ser_provides r provides) (fun p =>
    Some (JObj [("artifacts", a); ("provides", p); ("runfiles", f)])))).
End Hash.

(** ** Reading *)
Section Read.
Variable u64_of_num : num -> N.

(** [Expression::FromJson], expression.cpp:171-206. *)
Fixpoint value_FromJson (j : json) : value :=
  match j with
  | JNull => VNone
  | JBool b => VBool b
  | JInt z => VNum (binary_normalize prec emax z 0 false)
  | JNum n => VNum n
  | JStr s => VStr s
  | JArr l => VList (map value_FromJson l)
  | JObj m => VMap (map (fun p => match p with (k, x) => (k, value_FromJson x) end) m)
  end.

Definition mem (x : string) (l : list string) : bool := existsb (String.eqb x) l.

(** The values read so far ([sofar]). *)
Definition memo := list (string * value).

Section Iter2.
Variable f : string -> memo -> option (value * memo).
Fixpoint des_list (l : list json) (s : memo) : option (list value * memo) :=
  match l with
  | [] => Some ([], s)
  | j :: l' =>
      obind (as_string j) (fun id => obind (f id s) (fun r =>
      obind (des_list l' (snd r)) (fun r' => Some (fst r :: fst r', snd r'))))
  end.
Fixpoint des_map (m : list (string * json)) (s : memo) : option (list (string * value) * memo) :=
  match m with
  | [] => Some ([], s)
  | (k, j) :: m' =>
      obind (as_string j) (fun id => obind (f id s) (fun r =>
      obind (des_map m' (snd r)) (fun r' => Some ((k, fst r) :: fst r', snd r'))))
  end.
End Iter2.

Definition remember (id : string) (x : value * memo) : option (value * memo) :=
  Some (fst x, (id, fst x) :: snd x).

(** [DeserializeExpression], target_result.cpp:187-330. A new entry of the memo is put in front; its
    key is not yet in the memo unless the nodes are cyclic. *)
Fixpoint des (t : hash_type) (nds : list (string * json)) (arts pnodes press : list string)
    (fuel : nat) (id : string) (s : memo) : option (value * memo) :=
  match fuel with
  | O => None
  | S n =>
      let rec := des t nds arts pnodes press n in
      let child j k s := obind (jfind j k) (fun x => obind (as_string x) (fun i => rec i s)) in
      match alookup id s with
      | Some v => Some (v, s)
      | None =>
          match alookup id nds with
          | None => None
          | Some (JObj m) =>
              let j := JObj m in
              if mem id arts then
                obind (art_FromJson u64_of_num t j) (fun a => remember id (VArt a, s))
              else if mem id pnodes then
                match jfind j "type" with
                | Some (JStr ty) =>
                    if String.eqb ty "ABSTRACT_NODE" then
                      obind (extract_string j "node_type") (fun nt =>
                      obind (child j "target_fields" s) (fun tf =>
                      obind (child j "string_fields" (snd tf)) (fun sf =>
                      remember id (VNodeAbstract nt (fst sf) (fst tf), snd sf))))
                    else if String.eqb ty "VALUE_NODE" then
                      obind (child j "result" s) (fun x => remember id (VNodeValue (fst x), snd x))
                    else None
                | _ => None
                end
              else if mem id press then
                obind (child j "artifact_stage" s) (fun st =>
                obind (child j "runfiles" (snd st)) (fun rf =>
                obind (child j "provides" (snd rf)) (fun pr =>
                Some (VResult (fst st) (fst pr) (fst rf) true, snd pr))))
              else
                obind (des_map rec m s) (fun x => remember id (VMap (fst x), snd x))
          | Some (JArr l) => obind (des_list rec l s) (fun x => remember id (VList (fst x), snd x))
          | Some j => remember id (value_FromJson j, s)
          end
      end
  end.

(** [DeserializeArtifactMap], target_result.cpp:352-367. *)
Definition des_artifact_map (t : hash_type) (j : json) : option value :=
  match j with
  | JObj m =>
      obind (all_some (map (fun p => match p with (k, x) =>
                              option_map (fun a => (k, VArt a)) (art_FromJson u64_of_num t x) end) m))
            (fun l => Some (VMap l))
  | _ => None
  end.

(** [DeserializeProvidesMap], target_result.cpp:404-415, with [JsonSet], 395-402. *)
Definition des_provides (t : hash_type) (fuel : nat) (j : json) : option value :=
  obind (extract_string j "entry") (fun entry =>
  match jfind j "nodes" with
  | Some (JObj nds) =>
      obind (extract_strings j "provided_artifacts") (fun a =>
      obind (extract_strings j "provided_nodes") (fun n =>
      obind (extract_strings j "provided_results") (fun r =>
      obind (des t nds a n r fuel entry []) (fun x => Some (fst x)))))
  | _ => None
  end).

(** [TargetResult] with its three parts, target_result.hpp:28-32. *)
Record target_result := mkR { r_stage : value; r_provides : value; r_runfiles : value }.

(** [TargetResult::FromJson], target_result.cpp:450-466; also [TargetCacheEntry::ToResult],
    target_cache_entry.cpp:61-64. *)
Definition result_FromJson (t : hash_type) (fuel : nat) (j : json) : option target_result :=
  obind (jfind j "artifacts") (fun a => obind (des_artifact_map t a) (fun stage =>
  obind (jfind j "runfiles") (fun f => obind (des_artifact_map t f) (fun runfiles =>
  obind (jfind j "provides") (fun p => obind (des_provides t fuel p) (fun provides =>
  Some (mkR stage provides runfiles))))))).

(** ** Target cache entries *)

(** [ToObjectInfo], target_cache_entry.cpp:111-121. *)
Definition to_object_info (t : hash_type) (j : json) : option object_info :=
  match art_FromJson u64_of_num t j with
  | Some (AKnown d ty _) => Some (mkInfo d ty false)
  | _ => None
  end.

(** [ScanArtifactMap], target_cache_entry.cpp:123-138. *)
Definition scan_artifact_map (t : hash_type) (j : json) : option (list object_info) :=
  match j with
  | JObj m => all_some (map (fun p => match p with (_, x) => to_object_info t x end) m)
  | _ => None
  end.

(** [ScanProvidesMap], target_cache_entry.cpp:140-158. *)
Definition scan_provides_map (t : hash_type) (j : json) : option (list object_info) :=
  obind (extract_strings j "provided_artifacts") (fun ids =>
  obind (jfind j "nodes") (fun nds =>
  all_some (map (fun id => obind (jfind nds id) (to_object_info t)) ids))).

(** [TargetCacheEntry::ToArtifacts], target_cache_entry.cpp:160-176. *)
Definition to_artifacts (t : hash_type) (j : json) : option (list object_info) :=
  obind (jfind j "artifacts") (fun a => obind (scan_artifact_map t a) (fun la =>
  obind (jfind j "runfiles") (fun r => obind (scan_artifact_map t r) (fun lr =>
  obind (jfind j "provides") (fun p => obind (scan_provides_map t p) (fun lp =>
  Some (la ++ lr ++ lp))))))).
End Read.

(** [TargetCacheEntry::FromTarget], target_cache_entry.cpp:33-53; [implied] are the hashes of the
    export targets implied ([target->ImpliedExport()], a [std::set]). *)
Definition entry_FromTarget (ndump : num -> string) (H : string -> string) (r : replacements)
    (stage provides runfiles : value) (implied : list string) : option json :=
  obind (result_ToJson ndump H r stage provides runfiles) (fun j =>
  match j with
  | JObj m =>
      Some (JObj (match implied with
                  | [] => m
                  | _ => ainsert "implied export targets" (strings_json implied) m
                  end))
  | _ => None
  end).

(** [TargetCacheEntry::ToImplied], target_cache_entry.cpp:66-80: the set of the strings listed;
    reading stops at the first member that is no string. *)
Fixpoint leading_strings (l : list json) : list string :=
  match l with JStr s :: r => s :: leading_strings r | _ => [] end.
Definition to_implied (j : json) : list string :=
  match jfind j "implied export targets" with
  | Some (JArr l) => leading_strings l
  | _ => []
  end.

(** [TargetCacheEntry::ToImpliedIds], target_cache_entry.cpp:82-109; lists that are no JSON array are not followed up. *)
Definition to_implied_ids (t : hash_type) (key : string) (j : json) : option (list object_info) :=
  match jfind j "implied export targets" with
  | None => Some []
  | Some (JArr l) =>
      obind (all_some (map as_string l)) (fun ids =>
      all_some (map (fun id => option_map (fun d => mkInfo d File false) (create_digest t id 0 false))
                    (filter (fun id => negb (String.eqb id key)) ids)))
  | Some _ => None
  end.

(** ** Equality of nodes *)
Section NodeEq.
Variable ndump : num -> string.
Variable H : string -> string.
Definition value_eqb (a b : value) : bool := expr_eqb ndump H (embed ndump H a) (embed ndump H b).

(** [TargetNode::operator==], target_node.hpp:63-82. The last line compares the target fields of the
    one with the string fields of the other. *)
Definition node_eqb (a b : value) : bool :=
  match a, b with
  | VNodeValue v, VNodeValue w => value_eqb v w
  | VNodeAbstract t sf tf, VNodeAbstract t' sf' tf' =>
      String.eqb t t' && value_eqb sf sf' && value_eqb tf sf'
  | _, _ => false
  end.
End NodeEq.
