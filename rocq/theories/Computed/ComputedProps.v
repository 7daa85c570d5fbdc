(** C92: the tree of a root computed from the artifacts of a target. *)
From Coq Require Import String Ascii List Bool NArith Arith Sorted.
From Verif Require Import Common.Strs Hex.Model GitTree.Model GitTree.Spec TreeOps.Model TreeOps.Spec TreeOps.Proofs TreeOps.Witness Path.Model Path.Spec
  Upload.Model Upload.Spec Upload.Root Upload.Build Upload.Examples Computed.Model Computed.Spec Computed.Main.
Import ListNotations.
Local Open Scope string_scope.
Local Open Scope list_scope.

(** C92. The tree has exactly the artifacts of the stage at their paths, with their types, and the directories leading
    there; entries come in the order of a map, and artifacts may have to be converted to native storage. Full
    statement: for all paths inside the directory, not only normalised ones; see [C92_refuted]. *)
Theorem C92_partial : forall H, raw_ids H -> forall rehash stage l,
  sorted_keys stage -> stands_for rehash stage l -> Forall (fun p => good_key (fst p)) stage -> conflict_free l ->
  exists n, proper n /\ root_of l n /\ ArtifactsRoot H rehash stage = Value (ToHexString (nid H n)).
Proof. exact root_of_stage. Qed.
Print Assumptions C92_partial.

(** There is only one such directory. *)
Theorem C92_unique : forall l n m, proper n -> proper m -> root_of l n -> root_of l m -> n = m.
Proof.
  intros l n m Pn Pm [Cn Fn] [Cm Fm]. apply proper_view_ext; auto. intros q.
  destruct (view n q) as [[t i|]|] eqn:V, (view m q) as [[t' i'|]|] eqn:W; try reflexivity.
  - f_equal. apply Cn in V. apply Cm in V. congruence.
  - apply Cn in V. apply Cm in V. congruence.
  - apply Cn in V. apply Cm in V. congruence.
  - apply Fn in V. apply Fm in V. congruence.
  - apply Fn in V. apply Fm in V. congruence.
  - apply Cm in W. apply Cn in W. congruence.
  - apply Fm in W. apply Fn in W. congruence.
Qed.
Print Assumptions C92_unique.

(** There is a tree only if all entries are known artifacts that could be converted. *)
Theorem C92_known : forall H rehash stage h, ArtifactsRoot H rehash stage = Value h ->
  Forall (fun p => exists i, snd p = KnownInfo i /\ forall f, rehash = Some f -> f i <> None) stage.
Proof. exact root_known. Qed.
Print Assumptions C92_known.

(** ** Examples *)

Definition conv (i : info) : option info := Some i.
Definition id1 : string := blob_id toyH "A".
Definition id2 : string := blob_id toyH "BB".
Definition ex_l : list input :=
  [("a", Some (File, id1)); ("z-1/c", Some (Symlink, id2)); ("z/s/t/x", Some (Executable, id1)); ("z/w", Some (File, id2))].
Definition entry_of (i : input) : string * stage_entry :=
  (fst i, match snd i with Some (t, id) => KnownInfo (ToHexString id, t) | None => NotKnown end).
Definition ex_stage : list (string * stage_entry) := map entry_of ex_l.

Definition insideb (p : string) : bool :=
  (negb (is_absolute p) && Nat.eqb (up (place_of p)) 0 && negb (Nat.eqb (List.length (down (place_of p))) 0))%bool.
Lemma insideb_ok p : insideb p = true -> inside p.
Proof.
  unfold insideb. rewrite !andb_true_iff, !negb_true_iff. intros [[A B] C]. apply inside_iff. split; [exact A|]. split; [now apply Nat.eqb_eq|].
  apply Nat.eqb_neq in C. intros E. rewrite E in C. now apply C.
Qed.
Definition goodkeyb (p : string) : bool := (String.eqb (ToNormalPath p) p && insideb p && nameableb p)%bool.
Lemma goodkeyb_ok p : goodkeyb p = true -> good_key p.
Proof.
  unfold goodkeyb. rewrite !andb_true_iff. intros [[A B] C]. split; [now apply String.eqb_eq|]. split; [now apply insideb_ok|now apply nameableb_ok].
Qed.
Fixpoint prefixb (p q : list string) : bool :=
  match p, q with
  | [], _ => true
  | x :: p', y :: q' => (String.eqb x y && prefixb p' q')%bool
  | _ :: _, [] => false
  end.
Lemma prefixb_ok p : forall q, prefix p q -> prefixb p q = true.
Proof.
  induction p as [|x p IH]; intros q [r E]; [reflexivity|]. subst q. cbn. rewrite String.eqb_refl. apply IH. now exists r.
Qed.
Definition freeb (l : list input) : bool :=
  forallb (fun i => forallb (fun j => (Nat.eqb i j || match nth_error l i, nth_error l j with
    | Some a, Some b => negb (prefixb (segments (fst a)) (segments (fst b))) | _, _ => true end)%bool) (seq 0 (List.length l))) (seq 0 (List.length l)).
Lemma freeb_ok l : freeb l = true -> conflict_free l.
Proof.
  unfold freeb. rewrite forallb_forall. intros F i j a b Hi Hj N P.
  assert (Li : In i (seq 0 (List.length l))) by (apply in_seq; split; [apply Nat.le_0_l|]; apply (proj1 (@nth_error_Some input l i)); rewrite Hi; discriminate).
  assert (Lj : In j (seq 0 (List.length l))) by (apply in_seq; split; [apply Nat.le_0_l|]; apply (proj1 (@nth_error_Some input l j)); rewrite Hj; discriminate).
  specialize (F i Li). rewrite forallb_forall in F. specialize (F j Lj). rewrite Hi, Hj in F.
  rewrite (proj2 (Nat.eqb_neq i j) N), (prefixb_ok _ _ P) in F. discriminate.
Qed.
Lemma ids_20 : String.length id1 = 20 /\ String.length id2 = 20.
Proof. split; apply toy_ids. Qed.
Definition knownb (i : input) : bool := match snd i with Some (_, id) => Nat.eqb (String.length id) 20 | None => false end.
Lemma stands l : forallb knownb l = true -> stands_for (Some conv) (map entry_of l) l /\ stands_for None (map entry_of l) l.
Proof.
  induction l as [|[k [[t id]|]] l IH]; intros E; cbn [forallb] in E; [split; constructor| |discriminate].
  apply andb_true_iff in E as [E1 E2]. destruct (IH E2) as [A B]. apply Nat.eqb_eq in E1.
  split; constructor; auto; (split; [reflexivity|]); exists t, id; (split; [reflexivity|]); (split; [exact E1|]); eexists; split; reflexivity.
Qed.
Fixpoint increasing {V} (l : list (string * V)) : bool :=
  match l with
  | p :: r => (forallb (fun q => str_ltb (fst p) (fst q)) r && increasing r)%bool
  | [] => true
  end.
Lemma increasing_ok {V} (l : list (string * V)) : increasing l = true -> sorted_keys l.
Proof.
  induction l as [|p l IH]; cbn [increasing]; intros E; [constructor|]. apply andb_true_iff in E as [E F]. constructor; [now apply IH|].
  apply Forall_forall. intros q I. rewrite forallb_forall in E. apply str_ltb_lt. now apply E.
Qed.

(** Directories next to each other, one of which is the beginning of the other; several levels; three types. *)
Example C92_nonvacuous : exists n,
  sorted_keys ex_stage /\ stands_for (Some conv) ex_stage ex_l /\ Forall (fun p => good_key (fst p)) ex_stage /\ conflict_free ex_l /\
  proper n /\ root_of ex_l n /\ ArtifactsRoot toyH (Some conv) ex_stage = Value (ToHexString (nid toyH n)) /\
  view n ["z"; "s"; "t"; "x"] = Some (Content Executable id1) /\ view n ["z"; "s"] = Some Folder /\ view n ["z-1"; "c"] = Some (Content Symlink id2).
Proof.
  assert (S : sorted_keys ex_stage) by (apply increasing_ok; vm_compute; reflexivity).
  assert (F : stands_for (Some conv) ex_stage ex_l) by (apply stands; vm_compute; reflexivity).
  assert (G : Forall (fun p => good_key (fst p)) ex_stage).
  { apply Forall_forall. intros p I. apply goodkeyb_ok. revert p I. apply Forall_forall. repeat constructor. }
  assert (C : conflict_free ex_l) by (apply freeb_ok; vm_compute; reflexivity).
  destruct (C92_partial toyH toy_ids (Some conv) ex_stage ex_l S F G C) as (n & P & R & E). exists n.
  do 6 (split; [assumption|]). split; [assumption|]. destruct R as [RC RF]. split; [|split].
  - apply RC. exists "z/s/t/x". split; [right; right; now left|reflexivity].
  - apply RF. right. exists ("z/s/t/x", Some (Executable, id1)), ["t"; "x"]. split; [right; right; now left|]. split; [reflexivity|discriminate].
  - apply RC. exists "z-1/c". split; [right; now left|reflexivity].
Qed.

(** ** Paths that are not normalised *)

(** One directory written in two ways, and something else in between. *)
Definition bad_l : list input := [("./z/x", Some (File, id1)); ("a", Some (File, id1)); ("z/w", Some (File, id2))].
Definition plain_l : list input := [("a", Some (File, id1)); ("z/w", Some (File, id2)); ("z/x", Some (File, id1))].
Definition value_eqb (a b : result string) : bool := match a, b with Value x, Value y => String.eqb x y | _, _ => false end.
Lemma bad_check : value_eqb (ArtifactsRoot toyH None (map entry_of bad_l)) (ArtifactsRoot toyH None (map entry_of plain_l)) = false.
Proof. vm_compute. reflexivity. Qed.
Lemma value_eqb_refl x : value_eqb (Value x) (Value x) = true.
Proof. apply String.eqb_refl. Qed.

(** The claim is false for other paths inside the directory: of a directory that is entered twice one part is lost. A path
    leading out of the directory takes an element from an empty stack. *)
Theorem C92_refuted :
  (exists H stage l n, raw_ids H /\ sorted_keys stage /\ stands_for None stage l /\ Forall (fun p => inside (fst p) /\ nameable (fst p)) stage /\
     conflict_free l /\ proper n /\ root_of l n /\ ArtifactsRoot H None stage <> Value (ToHexString (nid H n))) /\
  (forall H i, ArtifactsRoot H None [("../x", KnownInfo i)] = Undefined).
Proof.
  split; [|intros H [h t]; reflexivity].
  assert (S : sorted_keys (map entry_of plain_l)) by (apply increasing_ok; vm_compute; reflexivity).
  assert (F : stands_for None (map entry_of plain_l) plain_l) by (apply stands; vm_compute; reflexivity).
  assert (G : Forall (fun p => good_key (fst p)) (map entry_of plain_l)).
  { apply Forall_forall. intros p I. apply goodkeyb_ok. revert p I. apply Forall_forall. repeat constructor. }
  assert (C : conflict_free plain_l) by (apply freeb_ok; vm_compute; reflexivity).
  destruct (C92_partial toyH toy_ids None _ plain_l S F G C) as (n & P & [RC RF] & E).
  exists toyH, (map entry_of bad_l), bad_l, n. split; [apply toy_ids|].
  split; [apply increasing_ok; vm_compute; reflexivity|]. split; [apply stands; vm_compute; reflexivity|].
  split. { apply Forall_forall. intros p [<-|[<-|[<-|[]]]]; (split; [apply insideb_ok|apply nameableb_ok]); vm_compute; reflexivity. }
  split; [apply freeb_ok; vm_compute; reflexivity|]. split; [exact P|]. split; [split|].
  - intros q t id. rewrite RC. split; intros (p & [I|[I|[I|[]]]] & ->); injection I as <- <- <-.
    + exists "a". split; [right; now left|reflexivity].
    + exists "z/w". split; [right; right; now left|reflexivity].
    + exists "./z/x". split; [now left|reflexivity].
    + exists "z/x". split; [right; right; now left|reflexivity].
    + exists "a". split; [now left|reflexivity].
    + exists "z/w". split; [right; now left|reflexivity].
  - intros q. rewrite RF. split; (intros [E1|(i & r & [<-|[<-|[<-|[]]]] & Es & Nr)]; [now left|right..]).
    + exists ("a", Some (File, id1)), r. split; [right; now left|auto].
    + exists ("z/w", Some (File, id2)), r. split; [right; right; now left|auto].
    + exists ("./z/x", Some (File, id1)), r. split; [now left|auto].
    + exists ("z/x", Some (File, id1)), r. split; [right; right; now left|auto].
    + exists ("a", Some (File, id1)), r. split; [now left|auto].
    + exists ("z/w", Some (File, id2)), r. split; [right; now left|auto].
  - intros K. pose proof bad_check as B. rewrite K, E, value_eqb_refl in B. discriminate.
Qed.
Print Assumptions C92_refuted.
