(** Adding files and directories to the CAS, and what is found there (C118-C121). *)
From Coq Require Import String Ascii List Bool Arith Lia.
From Verif Require Import Hex.Model Path.Model Path.Spec GitTree.Model.
From Verif Require Symlinks.Spec GitTree.Spec TreeOps.Spec.
From Verif Require Import AddCas.Model AddCas.Spec AddCas.Proofs AddCas.Sound AddCas.Complete AddCas.Modes AddCas.Examples.
Import ListNotations.
Local Open Scope string_scope.
Local Open Scope list_scope.
Local Open Scope nat_scope.

(** ** C118: what is printed is the identifier of what was given, and all of it is in the CAS. *)

(** By default: the directory as it is; it is stored if its links do not lead out of their directories and it
    has no special files. *)
Theorem C118_default : forall (H : string -> string) (fs : entry) (limit : nat) (same_fs : bool) (location : path) (st : state)
    (es : list (string * entry)),
  TreeOps.Spec.raw_ids H -> proper fs -> at_path fs location = Some (Dir es) ->
  (forall p i, at_path fs p = Some (Reg i) -> nth_error (inodes st) i <> None) -> sane H st ->
  (forall fuel st' hex, add_to_cas H fuel fs limit same_fs None location st = (st', Some hex) ->
     exists m, as_is (inodes st) (Dir es) m /\ hex = ToHexString (git_id H m) /\ has_all H st' m) /\
  (same_fs = true -> (forall p e, at_path fs p = Some e -> List.length p < limit) ->
   forall m, as_is (inodes st) (Dir es) m ->
     exists N, forall fuel, N <= fuel -> exists st' hex, add_to_cas H fuel fs limit same_fs None location st = (st', Some hex)).
Proof.
  intros H fs limit same_fs location st es RH PF AL WI SA. split.
  - intros fuel st' hex E.
    destruct (add_sound H fs limit same_fs None location st es RH PF AL WI SA (or_introl eq_refl) fuel st' _ E) as (_ & _ & R).
    destruct (R hex eq_refl) as (ms & M & -> & HA). exists (IDir ms). split; [|auto].
    apply (means_as_is (inodes st) fs location location). now constructor.
  - intros SF LB m A. apply (as_is_means (inodes st) fs location m location) in A; [|reflexivity]. inversion A; subst.
    eapply add_complete; eauto. now left.
Qed.
Print Assumptions C118_default.

(** Ignoring special entries: the files and directories of it; always stored. *)
Theorem C118_ignore : forall (H : string -> string) (fs : entry) (limit : nat) (same_fs : bool) (location : path) (st : state)
    (es : list (string * entry)),
  TreeOps.Spec.raw_ids H -> proper fs -> at_path fs location = Some (Dir es) ->
  (forall p i, at_path fs p = Some (Reg i) -> nth_error (inodes st) i <> None) -> sane H st ->
  (forall fuel st' hex, add_to_cas H fuel fs limit same_fs (Some Ignore) location st = (st', Some hex) ->
     exists m, files_only (inodes st) (Dir es) m /\ hex = ToHexString (git_id H m) /\ has_all H st' m) /\
  (same_fs = true -> (forall p e, at_path fs p = Some e -> List.length p < limit) ->
   forall m, files_only (inodes st) (Dir es) m ->
     exists N, forall fuel, N <= fuel -> exists st' hex, add_to_cas H fuel fs limit same_fs (Some Ignore) location st = (st', Some hex)).
Proof.
  intros H fs limit same_fs location st es RH PF AL WI SA. split.
  - intros fuel st' hex E.
    destruct (add_sound H fs limit same_fs (Some Ignore) location st es RH PF AL WI SA (or_intror (or_introl eq_refl)) fuel st' _ E) as (_ & _ & R).
    destruct (R hex eq_refl) as (ms & M & -> & HA). exists (IDir ms). split; [|auto].
    apply (means_files (inodes st) fs location location). now constructor.
  - intros SF LB m A. apply (files_means (inodes st) fs location m location) in A. inversion A; subst.
    eapply add_complete; eauto. right. now left.
Qed.
Print Assumptions C118_ignore.

(** A file, or the target of a link as a file. *)
Theorem C118_file : forall (H : string -> string) (fuel : nat) (fs : entry) (limit : nat) (same_fs : bool) (md : mode)
    (location : path) (st : state) (e : entry),
  proper fs -> at_path fs location = Some e -> List.length location < limit -> sane H st ->
  (forall i n, e = Reg i -> nth_error (inodes st) i = Some n ->
     exists st', add_to_cas H fuel fs limit same_fs md location st = (st', Some (ToHexString (blob_id H (i_data n)))) /\
       has_object H st' (if i_exec n then Executable else File) (i_data n)) /\
  (forall c, e = Lnk c ->
     exists st', add_to_cas H fuel fs limit same_fs md location st = (st', Some (ToHexString (blob_id H c))) /\
       has_object H st' File c).
Proof.
  intros H fuel fs limit same_fs md location st e PF A L SA. unfold add_to_cas.
  rewrite (os_complete fs location [] e limit (proj2 (proper_at _ _ _ PF A)) A L). split.
  - intros i n -> N. rewrite N. unfold store_copy. rewrite N.
    destruct (store_bytes H (if i_exec n then Executable else File) (i_data n) st) as [st' id] eqn:E.
    destruct (store_bytes_spec H _ _ _ _ _ SA E) as (_ & _ & -> & HO). exists st'. split; [|exact HO].
    unfold id_text. destruct (i_exec n); reflexivity.
  - intros c ->. destruct (store_bytes H File c st) as [st' id] eqn:E.
    destruct (store_bytes_spec H _ _ _ _ _ SA E) as (_ & _ & -> & HO). exists st'. split; [reflexivity|exact HO].
Qed.
Print Assumptions C118_file.

Definition item2 : item :=
  IDir [("run", IFile true "make"); ("self", ILink "run"); ("sub", IDir [("doc", IFile false "text")])].
Example C118_nonvacuous :
  proper (fs2 []) /\ at_path (fs2 []) ["home"] = Some (Dir (simple ++ [])) /\ sane toy st1 /\
  as_is (inodes st1) (Dir (simple ++ [])) item2 /\
  snd (add_to_cas toy 5 (fs2 []) 9 true None ["home"] st1) = Some (ToHexString (git_id toy item2)) /\
  snd (add_to_cas toy 5 (fs2 [("fifo", Special)]) 9 true None ["home"] st1) = None /\
  snd (add_to_cas toy 5 (fs2 [("up", Lnk "../home")]) 9 true None ["home"] st1) = None /\
  snd (add_to_cas toy 5 (fs2 [("fifo", Special)]) 9 true (Some Ignore) ["home"] st1) =
    Some (ToHexString (git_id toy (IDir [("run", IFile true "make"); ("sub", IDir [("doc", IFile false "text")])]))).
Proof.
  split; [apply proper_b_ok; vm_compute; reflexivity|]. split; [reflexivity|]. split; [apply empty_sane|]. split.
  - constructor. repeat constructor; cbn.
    + apply (as_file (inodes st1) 1 (script "make")). reflexivity.
    + exists ["run"]. reflexivity.
    + apply (as_file (inodes st1) 2 (file "text")). reflexivity.
  - repeat split; vm_compute; reflexivity.
Qed.

(** ** C119: resolving links *)

(** With links resolved, what is printed is the identifier of the directory with the links replaced by what
    they lead to, and all of it is in the CAS. Partial: for links pointing to paths that do not go through
    other links. *)
Theorem C119_resolved_partial : forall (H : string -> string) (fs : entry) (limit : nat) (same_fs : bool) (sp : special)
    (location : path) (st : state) (es : list (string * entry)),
  TreeOps.Spec.raw_ids H -> proper fs -> at_path fs location = Some (Dir es) ->
  (forall p i, at_path fs p = Some (Reg i) -> nth_error (inodes st) i <> None) -> sane H st ->
  straight fs location (Some sp) ->
  forall fuel st' hex, add_to_cas H fuel fs limit same_fs (Some sp) location st = (st', Some hex) ->
    exists m, means (inodes st) fs location (Some sp) location (Dir es) m /\ hex = ToHexString (git_id H m) /\ has_all H st' m.
Proof.
  intros H fs limit same_fs sp location st es RH PF AL WI SA ST fuel st' hex E.
  destruct (add_sound H fs limit same_fs (Some sp) location st es RH PF AL WI SA (or_intror (or_intror ST)) fuel st' _ E) as (_ & _ & R).
  destruct (R hex eq_refl) as (ms & M & -> & HA). exists (IDir ms). split; [now constructor|auto].
Qed.
Print Assumptions C119_resolved_partial.

(** It succeeds whenever there is such a finite tree. *)
Theorem C119_succeeds_partial : forall (H : string -> string) (fs : entry) (limit : nat) (sp : special)
    (location : path) (st : state) (es : list (string * entry)),
  TreeOps.Spec.raw_ids H -> proper fs -> at_path fs location = Some (Dir es) ->
  (forall p i, at_path fs p = Some (Reg i) -> nth_error (inodes st) i <> None) -> sane H st ->
  straight fs location (Some sp) -> (forall p e, at_path fs p = Some e -> List.length p < limit) ->
  forall m, means (inodes st) fs location (Some sp) location (Dir es) m ->
    exists N, forall fuel, N <= fuel -> exists st' hex, add_to_cas H fuel fs limit true (Some sp) location st = (st', Some hex).
Proof.
  intros H fs limit sp location st es RH PF AL WI SA ST LB m M. inversion M; subst.
  eapply add_complete; eauto. right. now right.
Qed.
Print Assumptions C119_succeeds_partial.

Definition item1 : item :=
  IDir [("src", IDir [("main.c", IFile false "int x;"); ("run", IFile true "make"); ("readme", IFile false "text"); ("self", ILink "main.c")]);
        ("doc", IFile false "text")].
Lemma fs1_straight : straight fs1 ["home"] (Some TreeUpwards).
Proof.
  intros d f c t a b c' A PT E Nb X. apply paths_ok in A. apply paths_ok in X.
  assert (K : forall p c, In (p, Lnk c) (paths fs1) -> p = ["home"; "src"; "readme"] /\ c = "../doc" \/ p = ["home"; "src"; "self"] /\ c = "main.c").
  { intros p k I. cbn in I. repeat (destruct I as [I|I]; [try discriminate I; injection I as <- <-; auto|]). destruct I. }
  destruct PT as (r & u & Ed & T & Et).
  assert (U : t = ["home"; "doc"] \/ t = ["home"; "src"; "main.c"]).
  { destruct (K _ _ A) as [[Ep ->]|[Ep ->]]; change (?x :: ?y :: [?z]) with ([x; y] ++ [z]) in Ep; apply app_inj_tail in Ep;
      destruct Ep as [-> ->]; cbn in Ed; injection Ed as <-; cbn in T; injection T as <-; subst t; auto. }
  assert (L : List.length a = 3) by (destruct (K _ _ X) as [[-> _]|[-> _]]; reflexivity).
  assert (L2 : List.length t = List.length a + List.length b) by (rewrite E; apply app_length).
  destruct b; [congruence|]. cbn in L2. destruct U as [-> | -> ]; cbn in L2; lia.
Qed.
Example C119_nonvacuous :
  proper fs1 /\ sane toy st1 /\ straight fs1 ["home"] (Some TreeUpwards) /\
  means (inodes st1) fs1 ["home"] (Some TreeUpwards) ["home"] (Dir users) item1 /\
  snd (add_to_cas toy 5 fs1 9 true (Some TreeUpwards) ["home"] st1) = Some (ToHexString (git_id toy item1)) /\
  snd (add_to_cas toy 5 fs1 9 true (Some TreeUpwards) ["home"; "src"] st1) = None /\
  snd (add_to_cas toy 5 fs1 9 true (Some All) ["home"; "src"] st1) =
    Some (ToHexString (git_id toy (IDir [("main.c", IFile false "int x;"); ("run", IFile true "make");
      ("readme", IFile false "text"); ("self", IFile false "int x;")]))).
Proof.
  split; [apply proper_b_ok; vm_compute; reflexivity|]. split; [apply empty_sane|]. split; [exact fs1_straight|]. split.
  - constructor. apply means_usual; [reflexivity| |apply means_usual; [reflexivity| |constructor]].
    + constructor. apply means_usual; [reflexivity| |apply means_usual; [reflexivity| |]].
      * apply (means_file (inodes st1) _ _ _ _ 0 (file "int x;")). reflexivity.
      * apply (means_file (inodes st1) _ _ _ _ 1 (script "make")). reflexivity.
      * eapply means_replaced with (t := ["home"; "doc"]) (q' := ["home"; "doc"]) (e := Reg 2).
        -- left. split; [reflexivity|]. intros [u X]. discriminate X.
        -- exists ["src"], ["doc"]. repeat split.
        -- assert (LH : leads fs1 ["home"] (Some TreeUpwards) ["home"] ["home"] (Dir users))
             by (change ["home"] with (@nil string ++ ["home"]) at 2 3; eapply leads_entry; [apply leads_top|reflexivity|reflexivity]).
           change ["home"; "doc"] with (["home"] ++ ["doc"]). eapply leads_entry; [exact LH|reflexivity|reflexivity].
        -- reflexivity.
        -- apply (means_file (inodes st1) _ _ _ _ 2 (file "text")). reflexivity.
        -- apply means_kept; [|constructor]. split; [now right|]. exists ["main.c"]. reflexivity.
    + apply (means_file (inodes st1) _ _ _ _ 2 (file "text")). reflexivity.
  - repeat split; vm_compute; reflexivity.
Qed.

(** In general it is another tree: a link pointing to a path through a link is taken relative to the name it
    was reached by, not relative to where it is. Here [x -> s/l], [s -> a/b], [a/b/l -> ../f]; the file stored
    for [x] is [f], not [a/f]. *)
Theorem C119_lexical_refuted : exists (H : string -> string) (fs : entry) (location : path) (st : state) (es : list (string * entry)) (m : item),
  TreeOps.Spec.raw_ids H /\ proper fs /\ sane H st /\ at_path fs location = Some (Dir es) /\
  means (inodes st) fs location (Some TreeAll) location (Dir es) m /\
  item_at m ["x"] = Some (IFile false "right") /\
  exists fuel st' hex m', add_to_cas H fuel fs 9 true (Some TreeAll) location st = (st', Some hex) /\
    hex = ToHexString (git_id H m') /\ item_at m' ["x"] = Some (IFile false "wrong") /\ hex <> ToHexString (git_id H m).
Proof.
  exists toy, fs3, ["d"], st3, through,
    (IDir [("a", IDir [("b", IDir [("l", IFile false "right")]); ("f", IFile false "right")]); ("s", IDir [("l", IFile false "right")]);
           ("x", IFile false "right"); ("f", IFile false "wrong")]).
  split; [exact toy_raw|]. split; [apply proper_b_ok; vm_compute; reflexivity|]. split; [apply empty_sane|]. split; [reflexivity|]. split.
  - assert (R : forall q, means (inodes st3) fs3 ["d"] (Some TreeAll) q (Reg 0) (IFile false "right"))
      by (intros q; apply (means_file (inodes st3) _ _ _ _ 0 (file "right")); reflexivity).
    assert (LD : leads fs3 ["d"] (Some TreeAll) ["d"] ["d"] (Dir through))
      by (change ["d"] with (@nil string ++ ["d"]) at 2 3; eapply leads_entry; [apply leads_top|reflexivity|reflexivity]).
    assert (LA : exists ea, leads fs3 ["d"] (Some TreeAll) ["d"; "a"] ["d"; "a"] (Dir ea) /\ entry_of "f" ea = Some (Reg 0) /\
                   entry_of "b" ea = Some (Dir [("l", Lnk "../f")])).
    { eexists. split; [change ["d"; "a"] with (["d"] ++ ["a"]); eapply leads_entry; [exact LD|reflexivity|reflexivity]|split; reflexivity]. }
    destruct LA as (ea & LA & EF & EB).
    assert (LF : leads fs3 ["d"] (Some TreeAll) ["d"; "a"; "f"] ["d"; "a"; "f"] (Reg 0))
      by (change ["d"; "a"; "f"] with (["d"; "a"] ++ ["f"]); eapply leads_entry; [exact LA|exact EF|reflexivity]).
    assert (LBB : leads fs3 ["d"] (Some TreeAll) ["d"; "a"; "b"] ["d"; "a"; "b"] (Dir [("l", Lnk "../f")]))
      by (change ["d"; "a"; "b"] with (["d"; "a"] ++ ["b"]); eapply leads_entry; [exact LA|exact EB|reflexivity]).
    assert (PL : points_to ["d"] (Some TreeAll) ["d"; "a"; "b"] "../f" ["d"; "a"; "f"])
      by (exists ["a"; "b"], ["a"; "f"]; repeat split).
    assert (PS : points_to ["d"] (Some TreeAll) ["d"] "a/b" ["d"; "a"; "b"]) by (exists [], ["a"; "b"]; repeat split).
    assert (MB : means (inodes st3) fs3 ["d"] (Some TreeAll) ["d"; "a"; "b"] (Dir [("l", Lnk "../f")]) (IDir [("l", IFile false "right")])).
    { constructor. eapply means_replaced; [right; now left|exact PL|exact LF|reflexivity|apply R|constructor]. }
    constructor. apply means_usual; [reflexivity| |].
    + constructor. apply means_usual; [reflexivity|exact MB|]. apply means_usual; [reflexivity|apply R|constructor].
    + eapply means_replaced; [right; now left|exact PS|exact LBB|reflexivity|exact MB|].
      eapply means_replaced with (t := ["d"; "s"; "l"]) (q' := ["d"; "a"; "f"]) (e := Reg 0); [right; now left|exists [], ["s"; "l"]; repeat split| |reflexivity|apply R|].
      * assert (LS : leads fs3 ["d"] (Some TreeAll) ["d"; "s"] ["d"; "a"; "b"] (Dir [("l", Lnk "../f")]))
          by (change ["d"; "s"] with (["d"] ++ ["s"]); eapply leads_link; [exact LD|reflexivity|exact PS|exact LBB]).
        change ["d"; "s"; "l"] with (["d"; "s"] ++ ["l"]). eapply leads_link; [exact LS|reflexivity|exact PL|exact LF].
      * apply means_usual; [reflexivity| |constructor]. apply (means_file (inodes st3) _ _ _ _ 1 (file "wrong")). reflexivity.
  - split; [reflexivity|].
    destruct (add_to_cas toy 6 fs3 9 true (Some TreeAll) ["d"] st3) as [st' r] eqn:E.
    exists 6, st', (ToHexString (git_id toy (IDir [("a", IDir [("b", IDir [("l", IFile false "right")]); ("f", IFile false "right")]);
       ("s", IDir [("l", IFile false "right")]); ("x", IFile false "wrong"); ("f", IFile false "wrong")]))).
    eexists. split; [|split; [reflexivity|split; [reflexivity|]]].
    + rewrite E. f_equal. apply (f_equal snd) in E. cbn [snd] in E. rewrite <- E. vm_compute. reflexivity.
    + intros X. vm_compute in X. discriminate X.
Qed.
Print Assumptions C119_lexical_refuted.

(** ** C120: the files given and the CAS *)

(** Contents and executable bits of all files stay, and a CAS in order stays in order. Partial: see below. *)
Theorem C120_contents_partial : forall (H : string -> string) (fs : entry) (limit : nat) (same_fs : bool) (md : mode)
    (location : path) (st : state) (es : list (string * entry)),
  TreeOps.Spec.raw_ids H -> proper fs -> at_path fs location = Some (Dir es) ->
  (forall p i, at_path fs p = Some (Reg i) -> nth_error (inodes st) i <> None) -> sane H st ->
  md = None \/ md = Some Ignore \/ straight fs location md ->
  forall fuel st' r, add_to_cas H fuel fs limit same_fs md location st = (st', r) ->
    (forall t id i, In ((t, id), i) (cas st') -> exists n, nth_error (inodes st') i = Some n /\
       (if IsTreeObject t then tree_id H (i_data n) else blob_id H (i_data n)) = id) /\
    (forall i n, nth_error (inodes st) i = Some n -> exists n', nth_error (inodes st') i = Some n' /\
       i_data n' = i_data n /\ i_exec n' = i_exec n) /\
    (forall k i, cas_lookup k (cas st) = Some i -> cas_lookup k (cas st') = Some i).
Proof.
  intros H fs limit same_fs md location st es RH PF AL WI SA FI fuel st' r E.
  destruct (add_sound H fs limit same_fs md location st es RH PF AL WI SA FI fuel st' r E) as (S & [G1 G2] & _). auto.
Qed.
Print Assumptions C120_contents_partial.

(** A single file is not touched, and what is new in the CAS is a file of its own. *)
Theorem C120_single_file_partial : forall (H : string -> string) (fuel : nat) (fs : entry) (limit : nat) (same_fs : bool) (md : mode)
    (location : path) (st st' : state) (i : nat) (r : option string),
  proper fs -> at_path fs location = Some (Reg i) -> List.length location < limit ->
  add_to_cas H fuel fs limit same_fs md location st = (st', r) ->
  (forall j n, nth_error (inodes st) j = Some n -> nth_error (inodes st') j = Some n) /\
  (forall k j, In (k, j) (cas st') -> In (k, j) (cas st) \/ nth_error (inodes st) j = None).
Proof.
  intros H fuel fs limit same_fs md location st st' i r PF A L. unfold add_to_cas.
  rewrite (os_complete fs location [] _ limit (proj2 (proper_at _ _ _ PF A)) A L). unfold store_copy, store_bytes.
  destruct (nth_error (inodes st) i) as [n|]; [|intros E; injection E as <- _; auto].
  match goal with |- context [cas_lookup ?k ?c] => destruct (cas_lookup k c) end; intros E; injection E as <- _; cbn [inodes cas]; [auto|].
  split.
  - intros j m N. rewrite nth_error_app1; [exact N|]. apply nth_error_Some. congruence.
  - intros k j [X|X]; [|now left]. right. injection X as _ <-. apply nth_error_None. lia.
Qed.
Print Assumptions C120_single_file_partial.

(** Files of a directory become files of the CAS themselves: they are made read-only and get another time. *)
Theorem C120_untouched_refuted : exists (H : string -> string) (fs : entry) (location : path) (st st' : state) (hex : string) (i : nat) (n n' : inode),
  proper fs /\ sane H st /\ add_to_cas H 5 fs 9 true None location st = (st', Some hex) /\
  nth_error (inodes st) i = Some n /\ nth_error (inodes st') i = Some n' /\
  i_writable n = true /\ i_writable n' = false /\ i_epoch n = false /\ i_epoch n' = true.
Proof.
  destruct (add_to_cas toy 5 (fs2 []) 9 true None ["home"] st1) as [st' r] eqn:E.
  pose proof E as E'. vm_compute in E'. injection E' as <- <-.
  eexists toy, (fs2 []), ["home"], st1, _, _, 1, _, _.
  split; [apply proper_b_ok; vm_compute; reflexivity|]. split; [apply empty_sane|]. split; [exact E|].
  repeat split; vm_compute; reflexivity.
Qed.
Print Assumptions C120_untouched_refuted.

(** If the user then changes such a file in place, the CAS has another content under the identifier. *)
Theorem C120_independent_refuted : exists (H : string -> string) (fs : entry) (location : path) (st st' : state) (hex : string) (i : nat) (n : inode) (d : string),
  proper fs /\ sane H st /\ add_to_cas H 5 fs 9 true None location st = (st', Some hex) /\
  nth_error (inodes st') i = Some n /\ sane H st' /\
  ~ sane H (mkSt (set_nth i (mkIno (i_exec n) true false d) (inodes st')) (cas st')).
Proof.
  destruct (add_to_cas toy 5 (fs2 []) 9 true None ["home"] st1) as [st' r] eqn:E.
  assert (PF : proper (fs2 [])) by (apply proper_b_ok; vm_compute; reflexivity).
  assert (SA : sane toy st').
  { refine (proj1 (add_sound toy (fs2 []) 9 true None ["home"] st1 (simple ++ []) toy_raw PF eq_refl _ (empty_sane toy _) (or_introl eq_refl) 5 st' r E)).
    apply wired_by. vm_compute. reflexivity. }
  pose proof E as E'. vm_compute in E'. injection E' as <- <-.
  eexists toy, (fs2 []), ["home"], st1, _, _, 1, _, "other".
  split; [exact PF|]. split; [apply empty_sane|]. split; [exact E|]. split; [reflexivity|]. split; [exact SA|].
  intros S. cbn [cas] in S.
  match type of S with sane _ (mkSt _ ?c) => set (cs := c) in S end.
  assert (X : exists id, In ((Executable, id), 1) cs /\ blob_id toy "other" <> id).
  { eexists. split; [unfold cs; repeat first [left; reflexivity | right]|]. intros X. vm_compute in X. discriminate X. }
  destruct X as (id & I & N). destruct (S _ _ _ I) as (n & En & D). cbn in En. injection En as <-. cbn in D. contradiction.
Qed.
Print Assumptions C120_independent_refuted.

(** A directory on another file system than the cache is refused, although it is in order. *)
Theorem C120_other_file_system_refuted : exists (H : string -> string) (fs : entry) (location : path) (st : state) (es : list (string * entry)) (m : item),
  TreeOps.Spec.raw_ids H /\ proper fs /\ sane H st /\ at_path fs location = Some (Dir es) /\ as_is (inodes st) (Dir es) m /\
  forall fuel, snd (add_to_cas H fuel fs 9 false None location st) = None.
Proof.
  exists toy, (fs2 []), ["home"], st1, (simple ++ []), item2. split; [exact toy_raw|].
  destruct C118_nonvacuous as (A & B & C & D & _). repeat (split; [assumption|]).
  intros [|fuel]; vm_compute; reflexivity.
Qed.
Print Assumptions C120_other_file_system_refuted.

Example C120_nonvacuous : exists st' hex, add_to_cas toy 5 (fs2 []) 9 true None ["home"; "run"] st1 = (st', Some hex) /\
  inodes st' = inodes st1 ++ [mkIno true false true "make"] /\ cas st' <> [].
Proof.
  destruct (add_to_cas toy 5 (fs2 []) 9 true None ["home"; "run"] st1) as [st' r] eqn:E. vm_compute in E. injection E as <- <-.
  eexists _, _. split; [reflexivity|]. split; [reflexivity|discriminate].
Qed.

(** ** C121: the object at a path in a tree *)

(** The object at a path that is there. Partial: see below. *)
Theorem C121_existing_partial : forall (H : string -> string) (retrieve : string -> option string) (m k : item) (p : path),
  TreeOps.Spec.raw_ids H -> proper_item m -> serves H retrieve m -> item_at m p = Some k ->
  RetrieveSubPathId H retrieve (ToHexString (git_id H m), item_type m) p = Some (ToHexString (git_id H k), item_type k).
Proof.
  intros H retrieve m k p RH P S E. rewrite <- (app_nil_r p) at 1. now rewrite (sub_path H retrieve RH p m [] k P S E).
Qed.
Print Assumptions C121_existing_partial.

(** At a path that is not there one does not get a failure, but the directory (or file) where following it ended. *)
Theorem C121_missing_refuted : forall (H : string -> string) (retrieve : string -> option string) (m : item) (p : path) (f : string) (rest : path),
  TreeOps.Spec.raw_ids H -> proper_item m -> serves H retrieve m ->
  (forall ms, item_at m p = Some (IDir ms) -> named f ms = None ->
     item_at m (p ++ f :: rest) = None /\
     RetrieveSubPathId H retrieve (ToHexString (git_id H m), item_type m) (p ++ f :: rest) = Some (ToHexString (git_id H (IDir ms)), Tree)) /\
  (forall x d, item_at m p = Some (IFile x d) ->
     item_at m (p ++ f :: rest) = None /\
     RetrieveSubPathId H retrieve (ToHexString (git_id H m), item_type m) (p ++ f :: rest) =
       Some (ToHexString (blob_id H d), if x then Executable else File)).
Proof.
  intros H retrieve m p f rest RH P S.
  assert (A : forall k, item_at m p = Some k -> item_at m (p ++ f :: rest) = item_at k (f :: rest)).
  { clear. revert m. induction p as [|g p IH]; intros m k E; [injection E as ->; reflexivity|]. cbn in E |- *.
    destruct m as [| |ms]; try discriminate. destruct (named g ms); [now apply IH|discriminate]. }
  split.
  - intros ms E N. split; [rewrite (A _ E); cbn; now rewrite N|]. now apply sub_path_missing.
  - intros x d E. split; [now rewrite (A _ E)|]. rewrite (sub_path H retrieve RH p m (f :: rest) _ P S E). destruct x; reflexivity.
Qed.
Print Assumptions C121_missing_refuted.

Definition tree2 : list (string * item) := [("run", IFile true "make"); ("sub", IDir [("doc", IFile false "text")])].
Definition texts2 : list string := [dir_text toy tree2; dir_text toy [("doc", IFile false "text")]].
Definition retrieve2 (hex : string) : option string := find (fun d => String.eqb (ToHexString (tree_id toy d)) hex) texts2.
Example C121_nonvacuous :
  proper_item (IDir tree2) /\ serves toy retrieve2 (IDir tree2) /\
  RetrieveSubPathId toy retrieve2 (ToHexString (git_id toy (IDir tree2)), Tree) ["sub"; "doc"] = Some (ToHexString (blob_id toy "text"), File) /\
  RetrieveSubPathId toy retrieve2 (ToHexString (git_id toy (IDir tree2)), Tree) ["dub"; "doc"] =
    Some (ToHexString (git_id toy (IDir tree2)), Tree).
Proof.
  assert (V : forall ms, distinct_b (map fst ms) = true -> forallb (fun p => plain_b (fst p)) ms = true ->
    (forall f m, In (f, m) ms -> proper_item m) -> proper_item (IDir ms)).
  { intros ms D F R. constructor; [now apply distinct_b_ok| |exact R]. intros f m X.
    apply (plain_b_ok f). exact (proj1 (forallb_forall _ _) F _ X). }
  split; [|split; [|split; vm_compute; reflexivity]].
  - apply V; [vm_compute; reflexivity|vm_compute; reflexivity|]. intros f m [X|[X|[]]]; injection X as <- <-; [constructor|].
    apply V; [vm_compute; reflexivity|vm_compute; reflexivity|]. intros f m [X|[]]; injection X as <- <-. constructor.
  - intros p ms E. destruct p as [|a p]; [injection E as <-; vm_compute; reflexivity|]. unfold tree2 in E; cbn [item_at named] in E.
    destruct (String.eqb "run" a); [destruct p; discriminate E|]. destruct (String.eqb "sub" a); [|discriminate].
    destruct p as [|b p]; [injection E as <-; vm_compute; reflexivity|]. cbn [item_at named tree2] in E.
    destruct (String.eqb "doc" b); [destruct p; discriminate E|discriminate].
Qed.
