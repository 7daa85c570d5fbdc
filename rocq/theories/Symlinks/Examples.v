(** Concrete trees. *)
From Coq Require Import String Ascii List Bool.
From Verif Require Import Path.Model Path.Spec Symlinks.Model Symlinks.Spec Symlinks.Paths Symlinks.Follow Symlinks.Runs
  Symlinks.Complete Symlinks.View Symlinks.PartialMode Symlinks.Eval.
Import ListNotations.
Local Open Scope string_scope.
Local Open Scope list_scope.

Ltac plain_tac := repeat split; try discriminate; cbn; intuition discriminate.
Ltac proper_tac :=
  repeat match goal with
    | |- proper (Blob _ _) => constructor
    | |- proper (Link _) => constructor
    | |- proper (Dir _) => constructor
    | |- NoDup _ => constructor
    | |- ~ In _ _ => cbn; intuition discriminate
    | |- forall f n, In (f, n) _ -> _ => cbn; intros f n H
    | H : _ \/ _ |- _ => destruct H as [H|H]
    | H : (_, _) = (_, _) |- _ => injection H as <- <-
    | H : False |- _ => destruct H
    | |- plain _ => plain_tac
    end.

Definition file (c : string) : node := Blob false c.

(** A link through a link to a directory, and a link up. *)
Definition tools : node :=
  Dir [("bin", Dir [("tool", Blob true "T"); ("doc", Link "../share/doc")]);
       ("current", Link "bin"); ("run", Link "current/tool"); ("share", Dir [("doc", file "D")])].
Definition tools_resolved : node :=
  Dir [("bin", Dir [("tool", Blob true "T"); ("doc", file "D")]);
       ("current", Dir [("tool", Blob true "T"); ("doc", file "D")]);
       ("run", Blob true "T"); ("share", Dir [("doc", file "D")])].
Lemma tools_proper : proper tools.
Proof. unfold tools, file. proper_tac. Qed.
Lemma tools_complete : resolves_to ResolveCompletely tools tools_resolved.
Proof. apply (eval_resolves _ _ 12 _ "."). vm_compute. reflexivity. Qed.

(** A tree all of whose links name objects directly. *)
Definition plainly : node :=
  Dir [("a", Dir [("l", Link "../b"); ("k", Link "l")]); ("b", Dir [("f", file "F")])].
Definition plainly_resolved : node :=
  Dir [("a", Dir [("l", Dir [("f", file "F")]); ("k", Dir [("f", file "F")])]); ("b", Dir [("f", file "F")])].
Lemma plainly_proper : proper plainly.
Proof. unfold plainly, file. proper_tac. Qed.

Lemma at_cases_plainly p c : at_path plainly p = Some (Link c) ->
  (p = ["a"; "l"] /\ c = "../b") \/ (p = ["a"; "k"] /\ c = "l").
Proof.
  unfold plainly, at_path. destruct p as [|x p]; [discriminate|]. cbn [entry_bypath entry_of].
  destruct (String.eqb_spec "a" x) as [<-|_].
  - destruct p as [|y p]; [discriminate|]. cbn [entry_bypath entry_of].
    destruct (String.eqb_spec "l" y) as [<-|_].
    + destruct p as [|z p]; [|discriminate]. intros E. injection E as <-. left. auto.
    + destruct (String.eqb_spec "k" y) as [<-|_]; [|discriminate].
      destruct p as [|z p]; [|discriminate]. intros E. injection E as <-. right. auto.
  - destruct (String.eqb_spec "b" x) as [<-|_]; [|discriminate].
    destruct p as [|y p]; [discriminate|]. cbn [entry_bypath entry_of].
    destruct (String.eqb_spec "f" y) as [<-|_]; [|discriminate]. destruct p; discriminate.
Qed.

Lemma plainly_direct : direct plainly.
Proof.
  intros d f c A. apply at_cases_plainly in A. destruct A as [[E ->]|[E ->]];
    (change ["a"; "l"] with (["a"] ++ ["l"]) in E || change ["a"; "k"] with (["a"] ++ ["k"]) in E);
    apply snoc_inj in E; destruct E as [-> ->]; vm_compute; eauto.
Qed.

Lemma plainly_sees : resolved plainly [] plainly plainly_resolved.
Proof.
  apply complete_sound; [exact plainly_proper|reflexivity|].
  apply (eval_resolves _ _ 8 _ "."). vm_compute. reflexivity.
Qed.

(** ** A tree that can be resolved but is reported as cyclic *)
Definition twisted : node :=
  Dir [("x", Dir [("f", file "F"); ("l", Link "../y/f")]); ("y", Link "x")].
Definition twisted_resolved : node :=
  Dir [("x", Dir [("f", file "F"); ("l", file "F")]); ("y", Dir [("f", file "F"); ("l", file "F")])].
Lemma twisted_proper : proper twisted.
Proof. unfold twisted, file. proper_tac. Qed.

Definition twisted_x : node := Dir [("f", file "F"); ("l", Link "../y/f")].
Lemma twisted_leads_x : leads twisted ["x"] ["x"] twisted_x.
Proof. apply leads_real; reflexivity. Qed.
Lemma twisted_leads_y : leads twisted ["y"] ["x"] twisted_x.
Proof.
  apply (leads_link twisted [] [] [("x", twisted_x); ("y", Link "x")] "y" "x" ["x"]); try reflexivity.
  - constructor.
  - exact twisted_leads_x.
Qed.
Lemma twisted_leads_xl : leads twisted ["x"; "l"] ["x"; "f"] (file "F").
Proof.
  apply (leads_link twisted ["x"] ["x"] [("f", file "F"); ("l", Link "../y/f")] "l" "../y/f" ["y"; "f"]); try reflexivity.
  - exact twisted_leads_x.
  - apply (leads_entry twisted ["y"] ["x"] [("f", file "F"); ("l", Link "../y/f")]); try reflexivity.
    exact twisted_leads_y.
Qed.
Lemma twisted_x_resolved : resolved twisted ["x"] twisted_x (Dir [("f", file "F"); ("l", file "F")]).
Proof.
  constructor. econstructor; [apply leads_real; reflexivity|constructor|].
  econstructor; [exact twisted_leads_xl|constructor|]. constructor.
Qed.
Lemma twisted_sees : resolved twisted [] twisted twisted_resolved.
Proof.
  constructor. econstructor; [exact twisted_leads_x|exact twisted_x_resolved|].
  econstructor; [exact twisted_leads_y|exact twisted_x_resolved|]. constructor.
Qed.

Definition asks_of (a : action) : option (list request) := match a with Ask qs _ => Some qs | _ => None end.

Lemma stuck_safe (good : request -> Prop) (ok : string -> Prop) p a qs :
  asks_of a = Some qs -> Forall good qs -> Exists (fun q => ~ ok (q_path q)) qs ->
  safe good (fun p _ => ok p) p a.
Proof.
  destruct a as [| |qs' k]; try discriminate. intros E. injection E as ->. intros F X. cbn [safe].
  split; [exact F|]. intros vs F2. exfalso. clear F. induction F2 as [|q v qs vs G F2 IH]; inversion X; subst; auto.
Qed.

Definition twisted_requests : list request :=
  [start; mkReq "x" (Some twisted_x); mkReq "y" (Some (Link "x"));
   mkReq "x/l" (Some (Link "../y/f")); mkReq "y/f" None; mkReq "y" None; mkReq "x" None;
   mkReq "x/f" (Some (file "F"))].

Lemma twisted_unresolved m : ~ resolves_to ResolveCompletely twisted m.
Proof.
  intros (p & V).
  destruct (run_safe (fun q => In q twisted_requests) (fun p _ => p = "x/f") (create ResolveCompletely twisted) start) as [_ K].
  - now left.
  - intros q I'. unfold twisted_requests in I'.
    assert (forall qs, asks_of (create ResolveCompletely twisted q) = Some qs ->
      Forall (fun q => In q twisted_requests) qs -> Exists (fun q => q_path q <> "x/f") qs ->
      safe (fun q => In q twisted_requests) (fun p _ => p = "x/f") (q_path q) (create ResolveCompletely twisted q)) as S.
    { intros qs E F X. eapply stuck_safe; eassumption. }
    unfold twisted_requests in S.
    destruct I' as [E|I']; [rewrite <- E in *|destruct I' as [E|I']; [rewrite <- E in *|
      destruct I' as [E|I']; [rewrite <- E in *|destruct I' as [E|I']; [rewrite <- E in *|
      destruct I' as [E|I']; [rewrite <- E in *|destruct I' as [E|I']; [rewrite <- E in *|
      destruct I' as [E|I']; [rewrite <- E in *|destruct I' as [E|[]]; rewrite <- E in *]]]]]]].
    + apply (S [mkReq "x" (Some twisted_x); mkReq "y" (Some (Link "x"))]); [vm_compute; reflexivity| |].
      * repeat constructor; cbn; tauto.
      * apply Exists_cons_hd. discriminate.
    + apply (S [mkReq "x/f" (Some (file "F")); mkReq "x/l" (Some (Link "../y/f"))]); [vm_compute; reflexivity| |].
      * repeat constructor; cbn; tauto.
      * apply Exists_cons_tl, Exists_cons_hd. discriminate.
    + apply (S [mkReq "x" None]); [vm_compute; reflexivity| |].
      * repeat constructor; cbn; tauto.
      * apply Exists_cons_hd. discriminate.
    + apply (S [mkReq "y/f" None]); [vm_compute; reflexivity| |].
      * repeat constructor; cbn; tauto.
      * apply Exists_cons_hd. discriminate.
    + apply (S [mkReq "y" None]); [vm_compute; reflexivity| |].
      * repeat constructor; cbn; tauto.
      * apply Exists_cons_hd. discriminate.
    + apply (S [mkReq "x" None]); [vm_compute; reflexivity| |].
      * repeat constructor; cbn; tauto.
      * apply Exists_cons_hd. discriminate.
    + apply (S [mkReq "x/f" (Some (file "F")); mkReq "x/l" (Some (Link "../y/f"))]); [vm_compute; reflexivity| |].
      * repeat constructor; cbn; tauto.
      * apply Exists_cons_tl, Exists_cons_hd. discriminate.
    + reflexivity.
  - apply K in V. discriminate.
Qed.

(** ** Links that go up after a link to a directory *)
Definition detour : node :=
  Dir [("l", Link "d/../x"); ("d", Link "e/f"); ("e", Dir [("f", Dir []); ("x", file "1")]); ("x", file "2")].
Lemma detour_proper : proper detour.
Proof. unfold detour, file. proper_tac. Qed.
Definition detour_resolved : node :=
  Dir [("l", file "2"); ("d", Dir []); ("e", Dir [("f", Dir []); ("x", file "1")]); ("x", file "2")].
Lemma detour_complete : resolves_to ResolveCompletely detour detour_resolved.
Proof. apply (eval_resolves _ _ 6 _ "."). vm_compute. reflexivity. Qed.
Lemma detour_walk : walks detour [] ["l"] ["e"; "x"] (file "1").
Proof.
  eapply walks_link; [plain_tac|reflexivity|reflexivity|reflexivity|].
  change (split_slash "d/../x" ++ []) with ["d"; ".."; "x"].
  eapply walks_link; [plain_tac|reflexivity|reflexivity|reflexivity|].
  change (split_slash "e/f" ++ [".."; "x"]) with ["e"; "f"; ".."; "x"].
  eapply walks_entry; [plain_tac|reflexivity|reflexivity|reflexivity|].
  eapply walks_entry; [plain_tac|reflexivity|reflexivity|reflexivity|].
  eapply walks_up; [reflexivity|discriminate|].
  eapply walks_entry; [plain_tac|reflexivity|reflexivity|reflexivity|].
  apply walks_end. reflexivity.
Qed.

(** ** A link replaced by the text of another link *)
Definition moved : node :=
  Dir [("a", Dir [("c", file "X"); ("l", Link "../b/m")]); ("b", Dir [("c", file "Y"); ("m", Link "c")])].
Definition moved_resolved : node :=
  Dir [("a", Dir [("c", file "X"); ("l", Link "c")]); ("b", Dir [("c", file "Y"); ("m", Link "c")])].
Lemma moved_proper : proper moved.
Proof. unfold moved, file. proper_tac. Qed.
Lemma moved_partial : resolves_to ResolvePartially moved moved_resolved.
Proof. apply (eval_resolves _ _ 6 _ "."). vm_compute. reflexivity. Qed.
Lemma moved_before : leads moved ["a"; "l"] ["b"; "c"] (file "Y").
Proof.
  eapply (leads_link moved ["a"]); [apply leads_real; reflexivity|reflexivity|reflexivity|].
  eapply (leads_link moved ["b"]); [apply leads_real; reflexivity|reflexivity|reflexivity|].
  apply leads_real; reflexivity.
Qed.
Lemma moved_after : leads moved_resolved ["a"; "l"] ["a"; "c"] (file "X").
Proof.
  eapply (leads_link moved_resolved ["a"]); [apply leads_real; reflexivity|reflexivity|reflexivity|].
  apply leads_real; reflexivity.
Qed.

(** ** A tree with kept and replaced links *)
Definition mixed : node :=
  Dir [("a", Dir [("f", file "F"); ("here", Link "f"); ("up", Link "../b")]); ("b", Dir [("g", file "G")])].
Definition mixed_resolved : node :=
  Dir [("a", Dir [("f", file "F"); ("here", Link "f"); ("up", Dir [("g", file "G")])]); ("b", Dir [("g", file "G")])].
Lemma mixed_proper : proper mixed.
Proof. unfold mixed, file. proper_tac. Qed.
Lemma mixed_partial : resolves_to ResolvePartially mixed mixed_resolved.
Proof. apply (eval_resolves _ _ 6 _ "."). vm_compute. reflexivity. Qed.

Lemma at_cases_mixed p c : at_path mixed p = Some (Link c) ->
  (p = ["a"; "here"] /\ c = "f") \/ (p = ["a"; "up"] /\ c = "../b").
Proof.
  unfold mixed, at_path. destruct p as [|x p]; [discriminate|]. cbn [entry_bypath entry_of].
  destruct (String.eqb_spec "a" x) as [<-|_].
  - destruct p as [|y p]; [discriminate|]. cbn [entry_bypath entry_of].
    destruct (String.eqb_spec "f" y) as [<-|_]; [destruct p; discriminate|].
    destruct (String.eqb_spec "here" y) as [<-|_].
    + destruct p as [|z p]; [|discriminate]. intros E. injection E as <-. left. auto.
    + destruct (String.eqb_spec "up" y) as [<-|_]; [|discriminate].
      destruct p as [|z p]; [|discriminate]. intros E. injection E as <-. right. auto.
  - destruct (String.eqb_spec "b" x) as [<-|_]; [|discriminate].
    destruct p as [|y p]; [discriminate|]. cbn [entry_bypath entry_of].
    destruct (String.eqb_spec "g" y) as [<-|_]; [|discriminate]. destruct p; discriminate.
Qed.

Lemma mixed_settled : settled mixed.
Proof.
  intros d f c A N. apply at_cases_mixed in A. destruct A as [[E ->]|[E ->]].
  - exfalso. apply N. exists ["f"]. reflexivity.
  - change ["a"; "up"] with (["a"] ++ ["up"]) in E. apply snoc_inj in E. destruct E as [-> ->].
    exists ["b"], (Dir [("g", file "G")]). split; [reflexivity|]. split; [reflexivity|].
    intros [|x p] c; [discriminate|]. unfold at_path. cbn [entry_bypath entry_of].
    destruct (String.eqb_spec "g" x); [destruct p; discriminate|discriminate].
Qed.

Lemma mixed_confined : confined mixed.
Proof.
  intros d f c A. apply at_cases_mixed in A. destruct A as [[E ->]|[E ->]];
    (change ["a"; "up"] with (["a"] ++ ["up"]) in E || change ["a"; "here"] with (["a"] ++ ["here"]) in E);
    apply snoc_inj in E; destruct E as [-> ->]; vm_compute; eauto.
Qed.

Lemma mixed_usual : usual_links mixed.
Proof.
  intros p c A. apply at_cases_mixed in A. destruct A as [[_ ->]|[_ ->]].
  - exists 0, ["f"]. split; [constructor; [plain_tac|constructor]|]. split; [discriminate|reflexivity].
  - exists 1, ["b"]. split; [constructor; [plain_tac|constructor]|]. split; [discriminate|reflexivity].
Qed.
