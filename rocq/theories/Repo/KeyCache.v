(** * Cached keys and duplicates of a repository configuration

    Model of src/buildtool/common/repository_config.hpp 59-64, 175-187 and
    src/buildtool/common/repository_config.cpp 40-96, 157-179, with
    src/buildtool/multithreading/atomic_value.hpp 37-63: the value is computed
    at the first request and kept until reset.  One thread only. *)

From Coq Require Import List Arith Bool.
From Verif.Repo Require Import Minimizer Keys.
Import ListNotations.

Section S.
Context {T : Type}.
(** The hash of base descriptions, and that of graphs. *)
Variable H : nat -> nat.
Variable digest : graph -> T.

(** repository_config.hpp 175-187: [repos_], the [key] in each of its entries if
    it is set, and [duplicates_] if it is set. *)
Record rconf := mkRC {
  rc_repos : config;
  rc_keys : list (nat * option T);
  rc_dups : option (list (nat * nat))
}.

Definition rc_empty := mkRC [] [] None.

Definition drop {A} (r : nat) (l : list (nat * A)) : list (nat * A) :=
  filter (fun e => negb (fst e =? r)) l.

(** repository_config.hpp 59-64: [SetInfo]. *)
Definition set_info (s : rconf) (r : nat) (e : repo) : rconf :=
  mkRC ((r, e) :: drop r (rc_repos s)) (drop r (rc_keys s)) None.

(** repository_config.cpp 40-57: [RepositoryKey], for the duplicates map [d]. *)
Definition lookup_key (s : rconf) (d : list (nat * nat)) (r : nat)
  : rconf * option T :=
  let x := dedup d r in
  match assoc x (rc_repos s) with
  | None => (mkRC (rc_repos s) (rc_keys s) (Some d), None)
  | Some _ =>
      match assoc x (rc_keys s) with
      | Some a => (mkRC (rc_repos s) (rc_keys s) (Some d), a)
      | None =>
          let a := match build_graph (S (length (rc_repos s))) (rc_repos s) d x with
                   | Done _ g => Some (digest g)
                   | _ => None
                   end in
          (mkRC (rc_repos s) ((x, a) :: rc_keys s) (Some d), a)
      end
  end.

(** The duplicates map used: the one kept, or a newly computed one. *)
Definition dups_of (s : rconf) (d : list (nat * nat)) : Prop :=
  match rc_dups s with
  | Some d0 => d = d0
  | None => minimized (automaton_of H (rc_repos s)) (Some d)
  end.

Inductive op :=
| SetInfo (r : nat) (e : repo)
| Query (r : nat) (answer : option T).

Inductive step : rconf -> op -> rconf -> Prop :=
| st_set s r e : step s (SetInfo r e) (set_info s r e)
| st_query s d r s' a :
    dups_of s d -> lookup_key s d r = (s', a) -> step s (Query r a) s'.

(** A history, from the empty configuration. *)
Inductive run : list op -> rconf -> Prop :=
| run_nil : run [] rc_empty
| run_snoc h s o s' : run h s -> step s o s' -> run (h ++ [o]) s'.

End S.
Arguments SetInfo {T}.
Arguments Query {T}.
