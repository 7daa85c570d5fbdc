(** C70-C74: resolving the symbolic links of a root. *)
From Coq Require Import String Ascii List Bool.
From Verif Require Import Path.Model Path.Spec Symlinks.Model Symlinks.Spec Symlinks.Follow Symlinks.Complete Symlinks.View
  Symlinks.Posix Symlinks.IgnoreMode Symlinks.PartialMode Symlinks.Examples.
Import ListNotations.
Local Open Scope string_scope.
Local Open Scope list_scope.

(** C70: at every path, the completely resolved tree shows exactly what one finds in the original tree by
    following the path and all links on the way; there are no links in it. Whatever the schedule. *)
Theorem C70_complete_view : forall root m,
  proper root -> is_link root = false -> resolves_to ResolveCompletely root m ->
  forall p,
    (forall x c, at_path m p = Some (Blob x c) <-> exists q, leads root p q (Blob x c)) /\
    (forall fs, (exists ms, at_path m p = Some (Dir ms) /\ map fst ms = fs) <->
                (exists q es, leads root p q (Dir es) /\ map fst es = fs)) /\
    (forall c, at_path m p <> Some (Link c)).
Proof.
  intros root m P N R p. apply complete_sound in R; [|exact P|exact N]. split; [|split].
  - intros x c. now apply view_blob.
  - intros fs. now apply view_dir.
  - intros c. now apply (view_link root).
Qed.
Print Assumptions C70_complete_view.

(** C70: the result does not depend on the schedule. *)
Theorem C70_complete_unique : forall root m m',
  proper root -> is_link root = false ->
  resolves_to ResolveCompletely root m -> resolves_to ResolveCompletely root m' -> m' = m.
Proof.
  intros root m m' P N R R'. apply complete_sound in R, R'; try assumption. eapply resolved_det; eassumption.
Qed.
Print Assumptions C70_complete_unique.

(** C70: there is a result only if every link of the tree leads, within the tree, to a file or a
    directory: links out of the tree, dangling links and cycles of links are errors. *)
Theorem C70_broken_links_rejected : forall root m d f c,
  proper root -> is_link root = false -> resolves_to ResolveCompletely root m ->
  at_path root (d ++ [f]) = Some (Link c) ->
  exists t q n, target_path d c = Some t /\ leads root t q n.
Proof.
  intros root m d f c P N R A. apply complete_sound in R; [|exact P|exact N].
  destruct (view_all root m R (d ++ [f]) (Link c) A) as (q & n & L).
  apply leads_inv in L. destruct L as (q0 & es & L & D).
  rewrite at_snoc in A. destruct (at_path root d) as [[| |es0]|] eqn:AD; try discriminate.
  destruct (leads_det _ _ _ _ (leads_real root d _ AD eq_refl) _ _ L) as [-> E]. injection E as ->.
  destruct D as [(F & NL & _)|(c0 & t & F & T & L')].
  - rewrite A in F. injection F as <-. discriminate.
  - rewrite A in F. injection F as <-. eauto.
Qed.
Print Assumptions C70_broken_links_rejected.

Example C70_nonvacuous :
  proper tools /\ resolves_to ResolveCompletely tools tools_resolved /\
  at_path tools ["run"] = Some (Link "current/tool") /\
  at_path tools_resolved ["run"] = Some (Blob true "T").
Proof. split; [exact tools_proper|]. split; [exact tools_complete|]. split; reflexivity. Qed.

(** C71 (full statement): whenever replacing all links by what they lead to gives a finite tree, complete
    resolution gives this tree. Proved if every link names an object of the tree without passing through
    another link on the way; refuted in general. *)
Theorem C71_resolvable_partial : forall root m,
  proper root -> is_link root = false -> direct root ->
  resolved root [] root m -> resolves_to ResolveCompletely root m.
Proof. intros root m P N D R. now apply complete_succeeds. Qed.
Print Assumptions C71_resolvable_partial.

(** A link to a file that is reached through a link to the directory the first link is in. *)
Theorem C71_resolvable_refuted : exists root m,
  proper root /\ is_link root = false /\ resolved root [] root m /\
  forall m', ~ resolves_to ResolveCompletely root m'.
Proof.
  exists twisted, twisted_resolved. split; [exact twisted_proper|]. split; [reflexivity|].
  split; [exact twisted_sees|exact twisted_unresolved].
Qed.
Print Assumptions C71_resolvable_refuted.

Example C71_nonvacuous :
  proper plainly /\ direct plainly /\ resolved plainly [] plainly plainly_resolved /\
  at_path plainly_resolved ["a"; "k"; "f"] = Some (file "F").
Proof.
  split; [exact plainly_proper|]. split; [exact plainly_direct|]. split; [exact plainly_sees|reflexivity].
Qed.

(** C72 (full statement): in the completely resolved tree one sees at every path what an operating
    system shows at this path in the original tree. Proved if all link targets have the usual form (steps
    up first, then names); refuted for targets with a step up after a name. *)
Theorem C72_as_the_system_partial : forall root m,
  proper root -> is_link root = false -> usual_links root -> resolves_to ResolveCompletely root m ->
  forall p, Forall plain p ->
    (forall x c, at_path m p = Some (Blob x c) <-> exists q, walks root [] p q (Blob x c)) /\
    (forall fs, (exists ms, at_path m p = Some (Dir ms) /\ map fst ms = fs) <->
                (exists q es, walks root [] p q (Dir es) /\ map fst es = fs)).
Proof.
  intros root m P N U R p PP. apply complete_sound in R; [|exact P|exact N]. split.
  - intros x c. rewrite (view_blob root m R). split; intros (q & H); exists q; apply leads_iff_walks in H; auto;
      now apply leads_iff_walks.
  - intros fs. rewrite (view_dir root m R). split; intros (q & es & H & E); exists q, es; (split; [|exact E]);
      apply (leads_iff_walks root P N U p q (Dir es) PP eq_refl); exact H.
Qed.
Print Assumptions C72_as_the_system_partial.

Theorem C72_as_the_system_refuted : exists root m p c c' q',
  proper root /\ is_link root = false /\ resolves_to ResolveCompletely root m /\ Forall plain p /\
  at_path m p = Some (Blob false c) /\ walks root [] p q' (Blob false c') /\ c <> c'.
Proof.
  exists detour, detour_resolved, ["l"], "2", "1", ["e"; "x"].
  split; [exact detour_proper|]. split; [reflexivity|]. split; [exact detour_complete|].
  split; [constructor; [plain_tac|constructor]|]. split; [reflexivity|]. split; [exact detour_walk|discriminate].
Qed.
Print Assumptions C72_as_the_system_refuted.

Example C72_nonvacuous : proper mixed /\ usual_links mixed /\ exists m, resolves_to ResolveCompletely mixed m.
Proof.
  split; [exact mixed_proper|]. split; [exact mixed_usual|].
  eexists. apply (Eval.eval_resolves _ _ 6 _ "."). vm_compute. reflexivity.
Qed.

(** C73: links that are left after partial resolution stay below the directory they are in. *)
Theorem C73_links_left : forall root m p c,
  resolves_to ResolvePartially root m -> at_path m p = Some (Link c) -> downward c.
Proof. intros root m p c R A. exact (partial_links root m R p c A). Qed.
Print Assumptions C73_links_left.

(** C73 (full statement): in the partially resolved tree every path leads to the same files and
    directory listings as in the original tree. Proved if the links that leave their directory directly
    name objects without links; refuted in general. *)
Theorem C73_same_meaning_partial : forall root m,
  proper root -> is_link root = false -> settled root -> resolves_to ResolvePartially root m ->
  forall p,
    (forall x c, (exists q, leads m p q (Blob x c)) <-> (exists q, leads root p q (Blob x c))) /\
    (forall fs, (exists q ms, leads m p q (Dir ms) /\ map fst ms = fs) <->
                (exists q es, leads root p q (Dir es) /\ map fst es = fs)).
Proof. intros root m P N S R p. now apply partial_meaning. Qed.
Print Assumptions C73_same_meaning_partial.

(** C73: such trees are resolved if their links do not leave the tree. *)
Theorem C73_resolved_partial : forall root,
  proper root -> is_link root = false -> settled root -> confined root ->
  exists m, resolves_to ResolvePartially root m.
Proof. intros root P N S C. now apply partial_succeeds. Qed.
Print Assumptions C73_resolved_partial.

(** A link out of its directory that leads to another link is replaced by this other link, in a
    directory where its target means something else. *)
Theorem C73_same_meaning_refuted : exists root m p q q' c c',
  proper root /\ is_link root = false /\ resolves_to ResolvePartially root m /\
  leads root p q (Blob false c) /\ leads m p q' (Blob false c') /\ c <> c'.
Proof.
  exists moved, moved_resolved, ["a"; "l"], ["b"; "c"], ["a"; "c"], "Y", "X".
  split; [exact moved_proper|]. split; [reflexivity|]. split; [exact moved_partial|].
  split; [exact moved_before|]. split; [exact moved_after|discriminate].
Qed.
Print Assumptions C73_same_meaning_refuted.

Example C73_nonvacuous :
  proper mixed /\ settled mixed /\ confined mixed /\ resolves_to ResolvePartially mixed mixed_resolved /\
  at_path mixed ["a"; "up"] = Some (Link "../b") /\
  at_path mixed_resolved ["a"; "up"; "g"] = Some (file "G") /\
  at_path mixed_resolved ["a"; "here"] = Some (Link "f").
Proof.
  split; [exact mixed_proper|]. split; [exact mixed_settled|]. split; [exact mixed_confined|].
  split; [exact mixed_partial|]. repeat split; reflexivity.
Qed.

(** C74: ignoring special entries always succeeds; the result has, at every path, exactly the files and
    directories that the tree has at this path. *)
Theorem C74_ignore : forall root,
  proper root -> is_link root = false ->
  exists m, (forall m', resolves_to Ignore root m' <-> m' = m) /\
  forall p,
    (forall x c, at_path m p = Some (Blob x c) <-> at_path root p = Some (Blob x c)) /\
    ((exists ms, at_path m p = Some (Dir ms)) <-> (exists es, at_path root p = Some (Dir es))) /\
    (forall c, at_path m p <> Some (Link c)).
Proof.
  intros root P N. exists (without_links root). split.
  - intros m'. split; [now apply ignore_sound|]. intros ->. now apply ignore_succeeds.
  - intros p. destruct (without_links_at root P p) as (A & B & C). auto.
Qed.
Print Assumptions C74_ignore.

Example C74_nonvacuous : proper tools /\
  without_links tools = Dir [("bin", Dir [("tool", Blob true "T")]); ("share", Dir [("doc", file "D")])].
Proof. split; [exact tools_proper|reflexivity]. Qed.
