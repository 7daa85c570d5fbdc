(** Concrete executions meeting the hypotheses of the theorems. *)
From Coq Require Import String Ascii List Bool Arith Lia.
From Verif Require Import GitTree.Model Storage.Model Storage.Spec Storage.Facts Storage.Props.
Import ListNotations.
Local Open Scope string_scope.
Local Open Scope list_scope.
Local Open Scope nat_scope.

(** Contents are hashed to themselves with a letter for the kind; every letter
    is a chunk. In a tree a letter is a file with this content, the letter U is
    the tree [ab]. *)
Definition letter (c : ascii) : string := String c EmptyString.
Definition toy_hash (k : kind) (b : bytes) : id :=
  match k with KBlob => String "b" b | KTree => String "t" b end.
Definition toy_entry (c : ascii) : id * (otype * list otype) :=
  if Ascii.eqb c "U" then ("tab", (Tree, []))
  else (String "b" (letter c), (File, [])).
Definition toy : config := {|
  cfg_hash := toy_hash;
  cfg_chunker := fun b => map letter (list_ascii_of_string b);
  cfg_parse_tree := fun b => Some (map toy_entry (list_ascii_of_string b));
  cfg_parse_action := fun b => if String.eqb b "res" then Some [(Tree, "tU"); (File, "bab")] else None;
  cfg_parse_target := fun b => if String.eqb b "tgt" then Some ([], [(Tree, "tU")]) else None;
  cfg_valid_name := fun _ => true;
  cfg_fuel := 60
|}.

Lemma toy_sane : sane toy.
Proof.
  split; [| |reflexivity].
  - intros b. cbn. induction b as [|c b IH]; cbn; [reflexivity|now rewrite IH].
  - intros b c. cbn. intros H. apply in_map_iff in H. destruct H as (x & <- & _). reflexivity.
Qed.

Lemma toy_collision : forall L, no_collision toy_hash L.
Proof. intros L [|] a [|] b _ _ E; try discriminate E; injection E as ->; auto. Qed.

(** Deciding the hypotheses. *)
Definition presentb (g : gen) (s : slot) (i : id) : bool := is_some (lookup g s i).
Definition availb (g : gen) (t : otype) (i : id) : bool :=
  if IsTreeObject t then (presentb g STree i || presentb g SLargeTree i)%bool
  else (presentb g SFile i || presentb g SExec i || presentb g SLargeFile i)%bool.
Lemma presentb_spec : forall g s i, presentb g s i = true <-> present g s i.
Proof.
  intros g s i. unfold presentb, present. destruct (lookup g s i); cbn; split; congruence.
Qed.
Lemma availb_spec : forall g t i, availb g t i = true <-> avail g t i.
Proof.
  intros g t i. unfold availb, avail, avail_tree, avail_blob.
  destruct (IsTreeObject t); rewrite ?orb_true_iff, !presentb_spec; tauto.
Qed.

Definition contractb (σ : store) (o : op) : bool :=
  let g := gen_at σ 0 in
  match o with
  | OStoreTree b => forallb (fun e => forallb (fun t => availb g t (fst e)) (fst (snd e) :: snd (snd e)))
      (map toy_entry (list_ascii_of_string b))
  | OStoreResult a b => match cfg_parse_action toy b with
                        | Some refs => forallb (fun p => availb g (fst p) (snd p)) refs
                        | None => false
                        end
  | OStoreTarget a b => match cfg_parse_target toy b with
                        | Some ([], refs) => forallb (fun p => availb g (fst p) (snd p)) refs
                        | _ => false
                        end
  | _ => true
  end.
Lemma contractb_spec : forall σ o, contractb σ o = true -> contract toy σ o.
Proof.
  intros σ [] H; try exact I; cbn [contractb contract] in *.
  - exists (map toy_entry (list_ascii_of_string b)). split; [reflexivity|].
    intros i t0 ts t Hi Ht. rewrite forallb_forall in H. specialize (H _ Hi). cbn [fst snd] in H.
    rewrite forallb_forall in H. apply availb_spec. exact (H t Ht).
  - destruct (cfg_parse_action toy b) as [refs|]; [|discriminate H]. exists refs. split; [reflexivity|].
    intros t i Hi. rewrite forallb_forall in H. apply availb_spec. exact (H _ Hi).
  - destruct (cfg_parse_target toy b) as [[[|] refs]|]; try discriminate H. exists [], refs.
    split; [reflexivity|]. split; [|intros j []].
    intros t i Hi. rewrite forallb_forall in H. apply availb_spec. exact (H _ Hi).
Qed.

Fixpoint checkb (acts : list action) (Σ : system) : bool :=
  match acts with
  | [] => (length (log (disk Σ)) + 2 <=? 60)
  | a :: r =>
      (match a with
       | Start o => contractb (disk Σ) o
       | Step _ ok => ok
       | Collect _ _ _ _ _ oks => forallb (fun x => x) oks
       end && checkb r (perform toy Σ a))%bool
  end.
Lemma checkb_spec : forall acts Σ, checkb acts Σ = true ->
  (forall a, In a acts -> no_io_error a) /\ contracts toy acts Σ /\
  length (log (disk (perform_all toy acts Σ))) + 2 <= 60.
Proof.
  induction acts as [|a acts IH]; intros Σ H; cbn [checkb] in H.
  - split; [intros a []|]. split; [exact I|]. now apply Nat.leb_le.
  - apply andb_true_iff in H. destruct H as [H1 H2]. destruct (IH _ H2) as (A & B & D).
    split; [|split; [|exact D]].
    + intros x [<-|Hx]; [|auto]. destruct a; cbn; auto.
      intros ok Hok. rewrite forallb_forall in H1. exact (H1 ok Hok).
    + split; [|exact B]. destruct a; auto. now apply contractb_spec.
Qed.
Lemma toy_history : forall n acts, 0 < n -> checkb acts (fresh n) = true -> history toy n acts.
Proof.
  intros n acts Hn H. destruct (checkb_spec _ _ H) as (A & B & D).
  split; [exact Hn|]. split; [exact A|]. split; [exact B|]. split; [apply toy_collision|exact D].
Qed.

Definition answer_of (Σ : system) (t : nat) : option answer :=
  match nth_error (threads Σ) t with Some (_, Ret r) => Some r | _ => None end.
Lemma answer_returned : forall Σ t o r, option_map fst (nth_error (threads Σ) t) = Some o ->
  answer_of Σ t = Some r -> returned Σ t o r.
Proof.
  intros Σ t o r E A. unfold answer_of, returned in *.
  destruct (nth_error (threads Σ) t) as [[o' [r'|X act k]]|]; try discriminate A.
  cbn in E. congruence.
Qed.

(** An operation run to its end as thread [t]. *)
Definition whole (t : nat) (o : op) : list action := Start o :: repeat (Step t true) 90.

(** Two blobs, a blob of two chunks, a tree, a tree containing it, and a result
    naming them. *)
Definition filled : list action :=
  whole 0 (OStoreBlob "a" false) ++ whole 1 (OStoreBlob "b" true) ++ whole 2 (OStoreBlob "ab" false) ++
  whole 3 (OAddTree "tab" "ab") ++ whole 4 (OStoreTree "U") ++ whole 5 (OStoreResult "act" "res") ++
  whole 6 (OCachedResult "act").
(** A garbage collection splitting the larger blob and the tree. *)
Definition gc : action :=
  Collect false false [(SFile, "bab")] [] [(SFile, "bab"); (STree, "tab")] (repeat true 60).

Definition answers (acts : list action) (l : list nat) : list (option answer) :=
  map (answer_of (reached toy 2 acts)) l.

Lemma filled_answers : answers filled [0; 3; 4; 5; 6] =
  [Some (AId (Some "ba")); Some (ADone true); Some (AId (Some "tU")); Some (ADone true);
   Some (ARefs (Some [(Tree, "tU"); (File, "bab")]))].
Proof. vm_compute. reflexivity. Qed.

(** C26, C30: the result was returned, then a garbage collection split and moved
    the blob. A lookup of the blob, executable now, and of the file in the tree
    in the tree of the result. *)
Definition later (o : op) : list action := filled ++ [gc] ++ whole 0 o.

Lemma later_1 : checkb (later (OReadBlob "bab" true)) (fresh 2) = true /\
  answers (later (OReadBlob "bab" true)) [0] = [Some (ABytes (Some "ab"))].
Proof. split; vm_compute; reflexivity. Qed.
Lemma later_2 : checkb (later (OReadBlob "ba" false)) (fresh 2) = true /\
  answers (later (OReadBlob "ba" false)) [0] = [Some (ABytes (Some "a"))] /\
  existsb (fun p => match p with (KTree, "U") => true | _ => false end)
    (log (disk (reached toy 2 (later (OReadBlob "ba" false))))) = true /\
  existsb (fun p => match p with (KTree, "ab") => true | _ => false end)
    (log (disk (reached toy 2 (later (OReadBlob "ba" false))))) = true.
Proof. repeat split; vm_compute; reflexivity. Qed.

Lemma in_log : forall L b, existsb (fun p => match p with (KTree, b') => String.eqb b b' | _ => false end) L = true ->
  In (KTree, b) L.
Proof.
  intros L b H. apply existsb_exists in H. destruct H as ([[|] b'] & Hin & E); try discriminate E.
  apply String.eqb_eq in E. now subst.
Qed.
Lemma later_log : forall b, b = "U" \/ b = "ab" ->
  In (KTree, b) (log (disk (reached toy 2 (later (OReadBlob "ba" false))))).
Proof. intros b [->| ->]; apply in_log; vm_compute; reflexivity. Qed.

Lemma filled_6 : returned (reached toy 2 filled) 6 (OCachedResult "act") (ARefs (Some [(Tree, "tU"); (File, "bab")])).
Proof. apply answer_returned; vm_compute; reflexivity. Qed.

Lemma toy_below : forall L, In (KTree, "ab") L -> below toy L "U" File "ba".
Proof.
  intros L H.
  apply (below_deep toy L "U" [toy_entry "U"] "tab" Tree [] Tree "ab" File "ba" eq_refl
    (or_introl eq_refl) (or_introl eq_refl) eq_refl H eq_refl).
  exact (below_entry toy L "ab" [toy_entry "a"; toy_entry "b"] "ba" File [] File eq_refl
    (or_introl eq_refl) (or_introl eq_refl)).
Qed.

Example C26_nonvacuous :
  let acts3 := repeat (Step 0 true) 90 in
  let Σ3 := reached toy 2 (filled ++ [gc] ++ Start (lookup_op File "ba" false) :: acts3) in
  history toy 2 (filled ++ [gc] ++ Start (lookup_op File "ba" false) :: acts3) /\
  collections [gc] < 2 /\ no_drop [gc] /\ no_collection acts3 /\
  returned (reached toy 2 filled) 6 (OCachedResult "act") (ARefs (Some [(Tree, "tU"); (File, "bab")])) /\
  told (OCachedResult "act") (ARefs (Some [(Tree, "tU"); (File, "bab")])) Tree "tU" /\
  reachable toy (log (disk Σ3)) Tree "tU" File "ba" /\
  returned Σ3 (length (threads (reached toy 2 (filled ++ [gc])))) (OReadBlob "ba" false) (ABytes (Some "a")).
Proof.
  cbv zeta. change (Start (lookup_op File "ba" false) :: repeat (Step 0 true) 90) with (whole 0 (OReadBlob "ba" false)).
  fold (later (OReadBlob "ba" false)).
  split; [apply toy_history; [lia|apply later_2]|].
  split; [vm_compute; lia|]. split; [intros a [<-|[]]; discriminate|].
  split; [intros a Ha; apply repeat_spec in Ha; now subst|].
  split; [exact filled_6|]. split; [cbn; auto|].
  split.
  - right. split; [reflexivity|]. exists "U". split; [apply later_log; auto|]. split; [reflexivity|].
    apply toy_below. apply later_log; auto.
  - apply answer_returned; vm_compute; reflexivity.
Qed.

Example C30_nonvacuous :
  let acts3 := repeat (Step 0 true) 90 in
  let acts := filled ++ [gc] ++ Start (lookup_op File "bab" true) :: acts3 in
  history toy 2 acts /\
  returned (reached toy 2 filled) 6 (OCachedResult "act") (ARefs (Some [(Tree, "tU"); (File, "bab")])) /\
  returned (reached toy 2 acts) (length (threads (reached toy 2 (filled ++ [gc])))) (OReadBlob "bab" true)
    (ABytes (Some "ab")).
Proof.
  cbv zeta. change (Start (lookup_op File "bab" true) :: repeat (Step 0 true) 90) with (whole 0 (OReadBlob "bab" true)).
  split; [apply toy_history; [lia|apply later_1]|]. split; [exact filled_6|].
  apply answer_returned; vm_compute; reflexivity.
Qed.

(** C25: a state reached with a killed thread, a failed access and a killed
    garbage collection. *)
Example C25_nonvacuous :
  let acts := filled ++ Start (OStoreBlob "cd" true) :: repeat (Step 7 true) 2 ++
    [Step 7 false; Collect false false [] [] [(SFile, "bab")] (repeat true 12)] in
  lookup (gen_at (disk (reached toy 2 acts)) 0) SExec "bb" = Some (Bytes "b") /\
  lookup (gen_at (disk (reached toy 2 acts)) 0) STree "tU" = Some (Bytes "U").
Proof. split; vm_compute; reflexivity. Qed.

(** C27: after the first garbage collection only something else is used. *)
Definition rest : list action :=
  whole 0 (OStoreBlob "c" false) ++ [gc] ++ whole 0 (OReadBlob "bc" true) ++ [gc].

Fixpoint youngb (t : otype) (d : id) (acts : list action) (Σ : system) : bool :=
  (availb (gen_at (disk Σ) 0) t d ||
   match acts with
   | [] => false
   | a :: r =>
       match a with
       | Collect _ false f e b oks => availb (gen_at (snd (run (Compactify toy f e b) oks (disk Σ))) 0) t d
       | _ => false
       end || youngb t d r (perform toy Σ a)
   end)%bool.
Lemma youngb_spec : forall t d acts Σ, youngb t d acts Σ = false ->
  never_young toy (fun g => avail g t d) acts Σ.
Proof.
  intros t d. induction acts as [|a acts IH]; intros Σ H; cbn [youngb never_young] in *;
    apply orb_false_iff in H; destruct H as [H1 H2].
  - split; [|exact I]. rewrite <- availb_spec. congruence.
  - apply orb_false_iff in H2. destruct H2 as [H2 H3].
    split; [rewrite <- availb_spec; congruence|]. split; [|auto].
    destruct a as [| |nr [|]]; auto. rewrite <- availb_spec. congruence.
Qed.
Lemma rest_facts : checkb ((filled ++ [gc]) ++ rest) (fresh 2) = true /\
  youngb Tree "tU" rest (reached toy 2 (filled ++ [gc])) = false /\
  rotations toy rest (reached toy 2 (filled ++ [gc])) = 2 /\
  availb (gen_at (disk (reached toy 2 (filled ++ [gc]))) 1) Tree "tU" = true.
Proof. repeat split; vm_compute; reflexivity. Qed.

Example C27_nonvacuous :
  history toy 2 ((filled ++ [gc]) ++ rest) /\
  never_young toy (fun g => avail g Tree "tU") rest (reached toy 2 (filled ++ [gc])) /\
  2 <= rotations toy rest (reached toy 2 (filled ++ [gc])) /\
  avail (gen_at (disk (reached toy 2 (filled ++ [gc]))) 1) Tree "tU".
Proof.
  destruct rest_facts as (A & B & D & E). split; [apply toy_history; [lia|exact A]|].
  split; [now apply youngb_spec|]. split; [rewrite D; lia|now apply availb_spec].
Qed.

(** C28: the trees are there, one of them in parts in the older generation
    after the garbage collection; the checked interface refuses a tree whose
    entries are missing. *)
Example C28_nonvacuous :
  history toy 2 (filled ++ [gc] ++ whole 0 (OAddTree "tabx" "abx")) /\
  lookup (gen_at (disk (reached toy 2 filled)) 0) STree "tU" = Some (Bytes "U") /\
  lookup (gen_at (disk (reached toy 2 (filled ++ [gc]))) 1) SLargeTree "tab" = Some (Parts ["ba"; "bb"]) /\
  answers (filled ++ [gc] ++ whole 0 (OAddTree "tabx" "abx")) [0] = [Some (ADone false)] /\
  answers (filled ++ [gc] ++ whole 0 (OAddTree "tba" "ba")) [0] = [Some (ADone true)].
Proof. split; [apply toy_history; [lia|]|]; repeat split; vm_compute; reflexivity. Qed.

(** C29: the blob and the tree are split; then they are found. The same with the
    compactification killed after [n] accesses. *)
Definition compact (n : nat) : action :=
  Collect true false [(SFile, "bab")] [] [(SFile, "bab"); (STree, "tab")] (repeat true n).
Example C29_nonvacuous :
  history toy 2 (filled ++ compact 60 :: whole 0 (OReadBlob "bab" true)) /\
  holds toy (gen_at (disk (reached toy 2 filled)) 0) File "bab" "ab" /\
  lookup (gen_at (disk (reached toy 2 (filled ++ [compact 60]))) 0) SFile "bab" = None /\
  answers (filled ++ compact 60 :: whole 0 (OReadBlob "bab" true)) [0] = [Some (ABytes (Some "ab"))] /\
  answers (filled ++ compact 60 :: whole 0 (OReadTree "tab")) [0] = [Some (ABytes (Some "ab"))] /\
  answers (filled ++ compact 15 :: whole 0 (OReadTree "tab")) [0] = [Some (ABytes (Some "ab"))].
Proof.
  split; [apply toy_history; [lia|vm_compute; reflexivity]|].
  split; [left; vm_compute; reflexivity|]. repeat split; vm_compute; reflexivity.
Qed.

(** C24: split, garbage collection, splice. *)
Definition split_run : list action := filled ++ whole 7 (OSplitBlob "bab") ++ whole 8 (OSplitTree "tab").
Example C24_nonvacuous :
  history toy 2 (split_run ++ [gc] ++ whole 0 (OSpliceBlob "bab" ["ba"; "bb"] true)) /\
  history toy 2 (split_run ++ [gc] ++ whole 0 (OSpliceTree "tab" ["ba"; "bb"])) /\
  answers split_run [7; 8] = [Some (AParts (Some ["ba"; "bb"])); Some (AParts (Some ["ba"; "bb"]))] /\
  answers (split_run ++ [gc] ++ whole 0 (OSpliceBlob "bab" ["ba"; "bb"] true)) [0] = [Some (AId (Some "bab"))] /\
  answers (split_run ++ [gc] ++ whole 0 (OSpliceBlob "bba" ["ba"; "bb"] true)) [0] = [Some (AId None)] /\
  answers (split_run ++ [gc] ++ whole 0 (OSpliceTree "tab" ["ba"; "bb"])) [0] = [Some (AId (Some "tab"))].
Proof.
  split; [apply toy_history; [lia|vm_compute; reflexivity]|].
  split; [apply toy_history; [lia|vm_compute; reflexivity]|]. repeat split; vm_compute; reflexivity.
Qed.

(** Outside C29, which excludes I/O errors: if only the writing of the large
    entry fails (the result of WriteEntry is ignored in
    large_object_cas.tpp:180), the split counts as successful, the file is
    removed (compactifier.cpp:295-304), and the object is lost. *)
Example write_failure_loses_object :
  let acts := filled ++ Collect true false [] [] [(SFile, "bab")] (repeat true 11 ++ false :: repeat true 40)
    :: whole 0 (OReadBlob "bab" false) in
  answers filled [2] = [Some (AId (Some "bab"))] /\ answers acts [0] = [Some (ABytes None)].
Proof. split; vm_compute; reflexivity. Qed.
