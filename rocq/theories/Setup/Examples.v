(** Concrete configurations (for C110-C114). *)
From Coq Require Import String Ascii List Bool Arith Lia.
From Verif Require Import Common.Strs Expr.Json Setup.Model Setup.Spec.
Import ListNotations.
Local Open Scope string_scope.
Local Open Scope list_scope.

(** Directories are taken as they are, and everything else is the Git tree said to be pinned. *)
Definition fetch0 (d : fields) : option json :=
  match get d "path" with
  | JStr p => Some (JArr [JStr (match get d "pragma" with JObj _ => "file ignore-special" | _ => "file" end); JStr p])
  | _ => match get d "tree" with JStr t => Some (JArr [JStr "git tree"; JStr t; JStr "/git"]) | _ => None end
  end.
Lemma fetch0_trees : fetches_trees fetch0.
Proof.
  intros d root E. unfold fetch0 in E.
  destruct (get d "path"); [| | | |injection E as <-; eexists _, _; split; [reflexivity|]; destruct (get d "pragma"); cbn; tauto| |];
    (destruct (get d "tree"); try discriminate; injection E as <-; eexists _, _; split; [reflexivity|]; cbn; tauto).
Qed.
Lemma fetch0_opens opens : (forall g t, opens g t = true) -> forall d root, fetch0 d = Some root -> exists f, stands_for opens root f.
Proof.
  intros O d root E. unfold fetch0 in E.
  destruct (get d "path"); [| | | |injection E as <-; destruct (get d "pragma"); eexists; constructor| |];
    (destruct (get d "tree"); try discriminate; injection E as <-; eexists; apply sf_git, O).
Qed.
Definition opens0 (g t : string) : bool := true.
Definition id_order (l : list string) : list string := l.
Lemma id_enumerates : enumerates id_order. Proof. intros l x. reflexivity. Qed.

Definition dir (p : string) : json := JObj [("path", JStr p); ("type", JStr "file")].
Definition git (t : string) : json := JObj [("tree", JStr t); ("type", JStr "git")].
Definition target (repo m n : string) : json :=
  JObj [("config", JObj [("ARCH", JStr "arm64")]); ("repo", JStr repo); ("target", JArr [JStr m; JStr n]); ("type", JStr "computed")].

(** An application with rules in another repository, a library known by another name, a computed root in a third
    repository, and something not used. *)
Definition repos0 : fields :=
  [ ("app", JObj [("bindings", JObj [("gen", JStr "gen"); ("lib", JStr "lib-alias")]); ("repository", dir "/app"); ("rule_root", JStr "rules");
                  ("target_file_name", JStr "TARGETS.app")]);
    ("gen", JObj [("repository", target "tools" "gen" "gen")]);
    ("lib", JObj [("repository", git "t-lib")]);
    ("lib-alias", JObj [("bindings", JObj [("tools", JStr "tools")]); ("repository", JStr "lib")]);
    ("rules", JObj [("repository", git "t-rules")]);
    ("tools", JObj [("repository", git "t-tools")]);
    ("unused", JObj [("repository", git "t-unused")]) ].
Definition conf0 (repos : fields) : fields := [("main", JStr "app"); ("repositories", JObj repos)].
Definition args0 : mr_args := {| a_main := None; a_all := false; a_interactive := false |}.
Definition env0 : mr_args := {| a_main := None; a_all := false; a_interactive := true |}.
Definition all0 : mr_args := {| a_main := None; a_all := true; a_interactive := false |}.
Definition setup0 (args : mr_args) (repos : fields) := mr_setup fetch0 id_order id_order args (conf0 repos).

Definition written0 : just_config :=
  {| j_main := Some "app";
     j_repos :=
       [ ("app", [("bindings", JObj [("gen", JStr "gen"); ("lib", JStr "lib-alias")]); ("rule_root", JArr [JStr "git tree"; JStr "t-rules"; JStr "/git"]);
                  ("target_file_name", JStr "TARGETS.app"); ("workspace_root", JArr [JStr "file"; JStr "/app"])]);
         ("gen", [("workspace_root", JArr [JStr "computed"; JStr "tools"; JStr "gen"; JStr "gen"; JObj [("ARCH", JStr "arm64")]])]);
         ("lib-alias", [("bindings", JObj [("tools", JStr "tools")]); ("workspace_root", JArr [JStr "git tree"; JStr "t-lib"; JStr "/git"])]);
         ("tools", [("workspace_root", JArr [JStr "git tree"; JStr "t-tools"; JStr "/git"])]) ] |}.
Lemma setup0_run : setup0 args0 repos0 = Done written0.
Proof. vm_compute. reflexivity. Qed.
Lemma main0 args repos : a_main args = None -> is_main args (conf0 repos) repos "app".
Proof. intros A. right. left. split; [exact A|reflexivity]. Qed.

Lemma entries0 r e : has_entry repos0 r e -> In (r, JObj e) repos0.
Proof. unfold has_entry. intros E. now apply alookup_In. Qed.
Lemma leads_somewhere repos j d : leads repos j d -> j = d \/ exists r e, has_entry repos r e /\ alookup "repository" e = Some d.
Proof. induction 1 as [y Y|y e z z' He Hz X [->|IH]]; [now left|right; eauto|now right]. Qed.
Lemma plain0 : plain_targets repos0.
Proof.
  intros r d rr m n c a D C. destruct C as [d r' m n c a T R G _ _].
  destruct (leads_somewhere _ _ _ D) as [X|(x & e & He & X)]; [discriminate|]. apply entries0 in He. cbn [In repos0] in He.
  repeat (destruct He as [He|He]; [injection He as <- <-; cbn in X; first [discriminate X|injection X as <-; cbn in G; congruence]|]). destruct He.
Qed.
Lemma typed0 : well_typed repos0.
Proof.
  intros r e He. apply entries0 in He. cbn [In repos0] in He. repeat (destruct He as [He|He]; [injection He as <- <-; split|]); try destruct He.
  all: try (left; left; reflexivity).
  all: try (right; eexists; split; [reflexivity|]; intros x v J; cbn [In] in J; repeat (destruct J as [J|J]; [injection J as <- <-; eauto|]); destruct J; fail).
  all: intros k [<-|[<-|[<-|[]]]]; first [left; left; reflexivity|right; eexists; reflexivity].
Qed.

Lemma refers0 r r' : computed_in repos0 r r' -> r' = "tools".
Proof.
  intros (d & D & Rf). destruct (leads_somewhere _ _ _ D) as [<-|(x & e & He & X)].
  - destruct Rf as [(m & n & c & a & C)|(a & C)]; inversion C.
  - apply entries0 in He. cbn [In repos0] in He. destruct Rf as [(m & n & c & a & C)|(a & C)]; inversion C; subst;
      repeat (destruct He as [He|He]; [injection He as <- <-; cbn in X; first [discriminate X|injection X as <-; cbn in *; congruence]|]); destruct He.
Qed.
Lemma tools0 r : ~ computed_in repos0 "tools" r.
Proof.
  intros (d & D & Rf). inversion D as [? X|? e d0 ? He Hd Ld]; subst; [destruct (X "tools" eq_refl)|]. unfold has_entry in He. cbn in He. injection He as <-.
  cbn in Hd. injection Hd as <-. inversion Ld; subst. destruct Rf as [(m & n & c & a & C)|(a & C)]; inversion C; subst; discriminate.
Qed.
Lemma in_order0 : in_order fetch0 repos0.
Proof.
  split.
  - intros r I. cbn [keys map fst repos0 In] in I.
    assert (forall t, root_for fetch0 (git t) (JArr [JStr "git tree"; JStr t; JStr "/git"])) as G
      by (intros t; eapply root_fetched; [reflexivity|cbn; tauto|reflexivity]).
    repeat (destruct I as [<-|I]; [eexists _, _, _; split; [reflexivity|]|]); [..|destruct I].
    all: try (split; [eapply leads_on; [reflexivity|reflexivity|]; apply leads_end; discriminate|apply G]).
    + split; [eapply leads_on; [reflexivity|reflexivity|]; apply leads_end; discriminate|]. eapply root_fetched; [reflexivity|cbn; tauto|reflexivity].
    + split; [eapply leads_on; [reflexivity|reflexivity|]; apply leads_end; discriminate|]. eapply root_computed. econstructor; try reflexivity; [right; reflexivity|apply am_none; left; reflexivity].
    + split; [|apply (G "t-lib")]. eapply leads_on; [reflexivity|reflexivity|]. eapply leads_on; [reflexivity|reflexivity|]. apply leads_end; discriminate.
  - intros r e k He K. apply entries0 in He. cbn [In repos0] in He.
    repeat (destruct He as [He|He]; [injection He as <- <-; destruct K as [<-|[<-|[<-|[]]]]; first [left; left; reflexivity|right; eexists; split; [reflexivity|cbn; tauto]]|]). destruct He.
  - intros r e b x r' He B J. apply entries0 in He. cbn [In repos0] in He.
    repeat (destruct He as [He|He]; [injection He as <- <-; cbn in B; first [discriminate B|injection B as <-; cbn [In] in J;
      repeat (destruct J as [J|J]; [injection J as <- <-; cbn; tauto|]); destruct J]|]). destruct He.
  - intros r r' _ C. apply refers0 in C as ->. cbn. tauto.
  - intros r V. assert (forall a b, computed_via repos0 a b -> b = "tools" /\ exists c, computed_in repos0 a c) as W.
    { intros a b X. split; [induction X; [eapply refers0; eauto|assumption]|destruct X; eauto]. }
    destruct (W r r V) as [-> [c C]]. exact (tools0 c C).
Qed.
