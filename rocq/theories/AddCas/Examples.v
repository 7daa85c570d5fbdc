(** Concrete directories. *)
From Coq Require Import NArith String Ascii List Bool Arith Lia.
From Verif Require Import Hex.Model Path.Model Path.Spec GitTree.Model.
From Verif Require Symlinks.Spec GitTree.Spec TreeOps.Spec Rehash.Examples.
From Verif Require Import AddCas.Model AddCas.Spec.
Import ListNotations.
Local Open Scope string_scope.
Local Open Scope list_scope.
Local Open Scope nat_scope.

Definition toy := Rehash.Examples.toy1.
Lemma toy_raw : TreeOps.Spec.raw_ids toy.
Proof. exact Rehash.Examples.toy1_length. Qed.

Definition plain_b (f : string) : bool :=
  (negb (String.eqb f "") && negb (String.eqb f ".") && negb (String.eqb f "..") &&
   forallb (fun c => negb (Ascii.eqb c "/") && negb (Ascii.eqb c (ascii_of_N 0%N))) (list_ascii_of_string f) &&
   Nat.leb (String.length f) 9)%bool.
Lemma plain_b_ok f : plain_b f = true -> plain f /\ GitTree.Spec.valid_name f.
Proof.
  unfold plain_b. rewrite !andb_true_iff, !negb_true_iff, !String.eqb_neq, forallb_forall. intros ((((A & B) & C) & D) & E).
  apply Nat.leb_le in E.
  assert (D1 : ~ In "/"%char (list_ascii_of_string f)).
  { intros X. apply D in X. discriminate. }
  assert (D2 : ~ In (ascii_of_N 0%N) (list_ascii_of_string f)).
  { intros X. apply D in X. discriminate. }
  split; [repeat split; assumption|]. repeat split; try assumption. lia.
Qed.
Fixpoint distinct_b (l : list string) : bool :=
  match l with [] => true | x :: r => negb (existsb (String.eqb x) r) && distinct_b r end.
Lemma distinct_b_ok l : distinct_b l = true -> NoDup l.
Proof.
  induction l as [|x l IH]; cbn; [constructor|]. rewrite andb_true_iff, negb_true_iff. intros [A B]. constructor; [|auto].
  intros I. assert (X : existsb (String.eqb x) l = true) by (apply existsb_exists; exists x; split; [exact I|apply String.eqb_refl]). congruence.
Qed.
Fixpoint proper_b (e : entry) : bool :=
  match e with
  | Dir es => distinct_b (map fst es) && forallb (fun p => plain_b (fst p)) es &&
      (fix all l := match l with [] => true | (_, x) :: r => proper_b x && all r end) es
  | _ => true
  end.
Fixpoint proper_b_ok e {struct e} : proper_b e = true -> proper e.
Proof.
  destruct e as [i|c| |es]; intros E; try constructor.
  - cbn [proper_b] in E. rewrite !andb_true_iff in E. apply distinct_b_ok, E.
  - cbn [proper_b] in E. rewrite !andb_true_iff in E. intros f e X. apply plain_b_ok.
    apply (proj1 (forallb_forall _ _) (proj2 (proj1 E)) _ X).
  - cbn [proper_b] in E. rewrite !andb_true_iff in E. destruct E as [_ E]. revert E.
    induction es as [|[g y] es IH]; intros E f e X; [destruct X|]. cbn in E. apply andb_true_iff in E. destruct E as [E1 E2].
    destruct X as [X|X]; [injection X as _ <-; now apply proper_b_ok|exact (IH E2 _ _ X)].
Qed.

(** All paths of a file system, to check statements about all of them. *)
Fixpoint paths (e : entry) : list (path * entry) :=
  ([], e) :: match e with
             | Dir es => (fix all l := match l with
                                       | [] => []
                                       | (f, x) :: r => map (fun p => (f :: fst p, snd p)) (paths x) ++ all r
                                       end) es
             | _ => []
             end.
Lemma paths_ok e p x : at_path e p = Some x -> In (p, x) (paths e).
Proof.
  revert e. induction p as [|f p IH]; intros e A.
  - injection A as <-. destruct e; now left.
  - cbn in A. destruct e as [| | |es]; try discriminate. right. cbn [paths].
    induction es as [|[g y] es IHe]; cbn in A; [discriminate|]. apply in_or_app. destruct (String.eqb_spec g f) as [->|N].
    + left. apply in_map_iff. exists (p, x). split; [reflexivity|now apply IH].
    + right. now apply IHe.
Qed.

Definition file (d : string) : inode := mkIno false true false d.
Definition script (d : string) : inode := mkIno true true false d.

(** A directory with files, a script, and links: one in it, one leading up, and one to the latter. *)
Definition users : list (string * entry) :=
  [("src", Dir [("main.c", Reg 0); ("run", Reg 1); ("readme", Lnk "../doc"); ("self", Lnk "main.c")]); ("doc", Reg 2)].
Definition fs1 : entry := Dir [("home", Dir users)].
Definition st1 : state := mkSt [file "int x;"; script "make"; file "text"] [].

(** Without the link up, but with a special file. *)
Definition simple : list (string * entry) := [("run", Reg 1); ("self", Lnk "run"); ("sub", Dir [("doc", Reg 2)])].
Definition fs2 (extra : list (string * entry)) : entry := Dir [("home", Dir (simple ++ extra))].

(** A link through a link. *)
Definition through : list (string * entry) :=
  [("a", Dir [("b", Dir [("l", Lnk "../f")]); ("f", Reg 0)]); ("s", Lnk "a/b"); ("x", Lnk "s/l"); ("f", Reg 1)].
Definition fs3 : entry := Dir [("d", Dir through)].
Definition st3 : state := mkSt [file "right"; file "wrong"] [].

Lemma empty_sane H ns : sane H (mkSt ns []).
Proof. intros t id i []. Qed.

Lemma wired_by fs ns : forallb (fun p => match snd p with Reg i => Nat.ltb i (List.length ns) | _ => true end) (paths fs) = true ->
  forall p i, at_path fs p = Some (Reg i) -> nth_error ns i <> None (A := inode).
Proof.
  intros F p i A. apply paths_ok in A. apply (proj1 (forallb_forall _ _) F) in A. cbn in A. apply nth_error_Some. now apply Nat.ltb_lt.
Qed.
Lemma short_by fs limit : forallb (fun p => Nat.ltb (List.length (fst p)) limit) (paths fs) = true ->
  forall p e, at_path fs p = Some e -> List.length p < limit.
Proof. intros F p e A. apply paths_ok in A. apply (proj1 (forallb_forall _ _) F) in A. cbn in A. now apply Nat.ltb_lt. Qed.
