(** * The automaton minimiser

    Model of src/utils/automata/dfa_minimizer.hpp.

    Simplifications, valid for the whole file:
    - state names, symbols and content ids are natural numbers; the code only
      compares them (for equality, and names also with [<] to order a pair);
    - a bucket id is the JSON text of the pair (hexadecimal content id,
      symbols); two such texts agree iff the pairs agree, so the pair itself
      is used;
    - the iteration order of an [std::unordered_map] is unspecified.  Such a
      map is a list here, and every theorem is about an arbitrary
      rearrangement of those lists. *)

From Coq Require Import List Arith Bool Lia Permutation.
Import ListNotations.

(** [std::map::find] on an association list. *)
Fixpoint assoc {A} (k : nat) (l : list (nat * A)) : option A :=
  match l with
  | [] => None
  | (k', v) :: r => if k =? k' then Some v else assoc k r
  end.

(** dfa_minimizer.hpp 45: [transitions_t], an ordered map from symbols to
    states. *)
Definition transitions := list (nat * nat).

(** dfa_minimizer.hpp 49-52: [Bucket], together with the content id, which the
    code has in the bucket's key only. *)
Record bucket := mkBucket {
  b_content : nat;
  b_symbols : list nat;
  b_states : list (nat * transitions)
}.

(** dfa_minimizer.hpp 176-177: [buckets_] and [buckets_by_state_]. *)
Record minimizer := mkMin {
  m_buckets : list bucket;
  m_by_state : list (nat * (nat * list nat))
}.

Definition empty_minimizer := mkMin [] [].

Definition list_eqb (a b : list nat) : bool :=
  if list_eq_dec Nat.eq_dec a b then true else false.

Definition is_bucket (c : nat) (syms : list nat) (b : bucket) : bool :=
  (b_content b =? c) && list_eqb (b_symbols b) syms.

(** dfa_minimizer.hpp 114-118: find the bucket or create it, and store the
    state there.  ([emplace] does nothing if the name is there already; then
    the contract of line 119 is violated anyway.) *)
Fixpoint put_state (c : nat) (syms : list nat) (n : nat) (t : transitions)
         (bs : list bucket) : list bucket :=
  match bs with
  | [] => [mkBucket c syms [(n, t)]]
  | b :: r =>
      if is_bucket c syms b
      then mkBucket (b_content b) (b_symbols b) (b_states b ++ [(n, t)]) :: r
      else b :: put_state c syms n t r
  end.

(** dfa_minimizer.hpp 104-120: [AddState].  [None] is the contract violation of
    line 119 (a name is added twice), which terminates the program. *)
Definition add_state (m : minimizer) (s : nat * transitions * nat)
  : option minimizer :=
  let '(n, t, c) := s in
  let syms := map fst t in
  match assoc n (m_by_state m) with
  | Some _ => None
  | None => Some (mkMin (put_state c syms n t (m_buckets m))
                        (m_by_state m ++ [(n, (c, syms))]))
  end.

Fixpoint add_states (m : minimizer) (l : list (nat * transitions * nat))
  : option minimizer :=
  match l with
  | [] => Some m
  | s :: r => match add_state m s with
              | None => None
              | Some m' => add_states m' r
              end
  end.

(** dfa_minimizer.hpp 55-86: [StatePairKey]; the smaller name comes first. *)
Definition pair_key := (nat * nat)%type.
Definition mkpair (a b : nat) : pair_key := if a <? b then (a, b) else (b, a).
Definition key_eqb (k k' : pair_key) : bool :=
  (fst k =? fst k') && (snd k =? snd k').
Definition mem_key (k : pair_key) (l : list pair_key) : bool :=
  existsb (key_eqb k) l.

(** dfa_minimizer.hpp 219-224: the pairs of one bucket: each state with all
    those before it. *)
Fixpoint bucket_pairs (before rest : list nat) : list pair_key :=
  match rest with
  | [] => []
  | n :: r => map (fun n2 => mkpair n n2) before ++ bucket_pairs (before ++ [n]) r
  end.

(** dfa_minimizer.hpp 211-227: [CreatePairs]. *)
Definition create_pairs (bs : list bucket) : list pair_key :=
  flat_map (fun b => bucket_pairs [] (map fst (b_states b))) bs.

(** dfa_minimizer.hpp 89-94: the values of all pairs: which are marked, and the
    parents recorded for each, as pairs (child, parent) in the order of
    insertion. *)
Record table := mkTab {
  t_marked : list pair_key;
  t_parents : list (pair_key * pair_key)
}.

Definition parents_of (k : pair_key) (par : list (pair_key * pair_key))
  : list pair_key :=
  map snd (filter (fun e => key_eqb (fst e) k) par).

(** dfa_minimizer.hpp 201-209: [MarkPairValue].  The fuel bounds the depth of
    the recursion; [None] is running out of it. *)
Fixpoint mark (fuel : nat) (par : list (pair_key * pair_key))
         (d : pair_key) (M : list pair_key) : option (list pair_key) :=
  match fuel with
  | 0 => None
  | S f =>
      fold_left (fun acc p =>
                   match acc with
                   | None => None
                   | Some M' => if mem_key p M' then Some M' else mark f par p M'
                   end)
                (parents_of d par) (Some (d :: M))
  end.

(** dfa_minimizer.hpp 132-150: the loop over the symbols of one pair.  [None]
    is an exception of [at] or running out of fuel. *)
Fixpoint pair_symbols (ps : list pair_key) (ab : pair_key)
         (ta tb : transitions) (syms : list nat) (T : table) : option table :=
  match syms with
  | [] => Some T
  | sym :: rest =>
      match assoc sym ta, assoc sym tb with
      | Some r, Some s =>
          if r =? s then pair_symbols ps ab ta tb rest T
          else
            let rs := mkpair r s in
            if negb (mem_key rs ps) || mem_key rs (t_marked T) then
              match mark (S (length ps)) (t_parents T) ab (t_marked T) with
              | None => None
              | Some M => pair_symbols ps ab ta tb rest (mkTab M (t_parents T))
              end
            else
              pair_symbols ps ab ta tb rest
                           (mkTab (t_marked T) (t_parents T ++ [(rs, ab)]))
      | _, _ => None
      end
  end.

(** [buckets_.at] *)
Fixpoint find_bucket (c : nat) (syms : list nat) (bs : list bucket)
  : option bucket :=
  match bs with
  | [] => None
  | b :: r => if is_bucket c syms b then Some b else find_bucket c syms r
  end.

(** dfa_minimizer.hpp 128-131: one pair of the main loop. *)
Definition process_pair (bs : list bucket) (by_state : list (nat * (nat * list nat)))
           (ps : list pair_key) (ab : pair_key) (T : table) : option table :=
  match assoc (fst ab) by_state with
  | None => None
  | Some (c, syms) =>
      match find_bucket c syms bs with
      | None => None
      | Some bk =>
          match assoc (fst ab) (b_states bk), assoc (snd ab) (b_states bk) with
          | Some ta, Some tb => pair_symbols ps ab ta tb (b_symbols bk) T
          | _, _ => match b_symbols bk with [] => Some T | _ => None end
          end
      end
  end.

(** dfa_minimizer.hpp 128-151: the main loop, over the pairs in the order in
    which the map happens to enumerate them. *)
Fixpoint process_pairs (bs : list bucket) (by_state : list (nat * (nat * list nat)))
         (ps : list pair_key) (todo : list pair_key) (T : table) : option table :=
  match todo with
  | [] => Some T
  | ab :: rest =>
      match process_pair bs by_state ps ab T with
      | None => None
      | Some T' => process_pairs bs by_state ps rest T'
      end
  end.

(** dfa_minimizer.hpp 163-168: those of [l] that form an unmarked pair with
    [last], and the others.  [None] is the dereferenced null pointer, if the
    pair does not exist. *)
Fixpoint split_equal (ps M : list pair_key) (last : nat) (l : list nat)
  : option (list nat * list nat) :=
  match l with
  | [] => Some ([], [])
  | s :: r =>
      match split_equal ps M last r with
      | None => None
      | Some (eqs, neqs) =>
          if negb (mem_key (mkpair last s) ps) then None
          else if mem_key (mkpair last s) M then Some (eqs, s :: neqs)
          else Some (s :: eqs, neqs)
      end
  end.

(** dfa_minimizer.hpp 158-170: the loop over the states of one bucket; [l] has
    the back of [all_states] first. *)
Fixpoint classes (fuel : nat) (ps M : list pair_key) (l : list nat)
  : option (list (nat * nat)) :=
  match fuel, l with
  | _, [] => Some []
  | 0, _ => None
  | S f, last :: rest =>
      match split_equal ps M last rest with
      | None => None
      | Some (eqs, neqs) =>
          match classes f ps M neqs with
          | None => None
          | Some out => Some (map (fun s => (s, last)) eqs ++ out)
          end
      end
  end.

Fixpoint all_classes (ps M : list pair_key) (bs : list bucket)
  : option (list (nat * nat)) :=
  match bs with
  | [] => Some []
  | b :: r =>
      let l := rev (map fst (b_states b)) in
      match classes (length l) ps M l, all_classes ps M r with
      | Some out, Some outs => Some (out ++ outs)
      | _, _ => None
      end
  end.

(** dfa_minimizer.hpp 124-173: [ComputeBisimulation]; [bs] are the buckets and
    [ps] the pairs, in the order in which the maps enumerate them. *)
Definition compute_bisimulation (bs : list bucket)
           (by_state : list (nat * (nat * list nat))) (ps : list pair_key)
  : option (list (nat * nat)) :=
  match process_pairs bs by_state ps ps (mkTab [] []) with
  | None => None
  | Some T => all_classes ps (t_marked T) bs
  end.

(** A possible enumeration of the buckets and of the states in each of them. *)
Definition same_bucket (b b' : bucket) : Prop :=
  b_content b = b_content b' /\ b_symbols b = b_symbols b' /\
  Permutation (b_states b) (b_states b').

Definition enumerates (bs : list bucket) (m : minimizer) : Prop :=
  exists bs', Permutation bs' (m_buckets m) /\ Forall2 same_bucket bs bs'.

(** [minimized sts out]: adding the states [sts] and computing the
    bisimulation, with some order of enumeration, returns [out]. *)
Definition minimized (sts : list (nat * transitions * nat))
           (out : option (list (nat * nat))) : Prop :=
  exists m bs ps,
    add_states empty_minimizer sts = Some m /\
    enumerates bs m /\
    Permutation ps (create_pairs bs) /\
    out = compute_bisimulation bs (m_by_state m) ps.

(** repository_config.cpp 91-96: the canonical name of a state. *)
Definition rep (out : list (nat * nat)) (n : nat) : nat :=
  match assoc n out with Some r => r | None => n end.
