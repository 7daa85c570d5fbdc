(** Proofs about names. *)
From Coq Require Import String Ascii List Bool NArith Arith Lia.
From Verif Require Import Common.Strs Path.Spec Path.Model Path.Proofs Path.Proofs2 Expr.Json Expr.Model.
From Verif Require Import Names.Model Names.Spec.
Import ListNotations.
Local Open Scope string_scope.
Local Open Scope list_scope.
Local Open Scope nat_scope.

Lemma normal_module_dirs m : normal_module_name m = join_slash (directory_of m).
Proof. exact (normal_module_name_eq m). Qed.

Lemma normal_form_fixed m : in_normal_form m -> normal_module_name m = m.
Proof.
  intros (ds & P & ->). rewrite normal_module_name_eq.
  assert (Forall okname (rev ds)) as F.
  { apply Forall_rev. eapply Forall_impl; [|exact P]. intros a. apply okname_plain. }
  pose proof (split_join_down (rev ds) F) as S. rewrite rev_involutive in S. rewrite S. cbn [down]. now rewrite rev_involutive.
Qed.

Lemma normal_form_relative m : in_normal_form m -> is_absolute m = false.
Proof.
  intros (ds & P & ->). destruct ds as [|d ds]; [reflexivity|]. inversion P as [|? ? P1 _]; subst.
  destruct P1 as (A & _ & _ & N). destruct d as [|c d]; [congruence|].
  assert (Ascii.eqb c slash = false) as E.
  { apply Ascii.eqb_neq. intros ->. apply N. now left. }
  destruct ds; cbn; exact E.
Qed.

Lemma normal_form_made m : in_normal_form (normal_module_name m).
Proof. exact (normal_module_shape m). Qed.

Section Parse.
Variable bindings : string -> option (list (string * string)).
Local Notation parse := (ParseEntityName bindings).

Lemma parse_normal src cur e : parse src cur = Some e -> exists n, e = Named n /\ in_normal_form (n_module n).
Proof.
  assert (forall r m t k, exists n, EntityName r m t k = Named n /\ in_normal_form (n_module n)) as B.
  { intros r m t k. eexists. split; [reflexivity|]. apply normal_form_made. }
  destruct cur as [cur|]; [|discriminate]. cbn [ParseEntityName].
  destruct src as [s|l|]; [intros E; injection E as <-; apply B| |discriminate].
  destruct (Nat.eqb (List.length l) 2).
  - unfold ParseEntityName_2. destruct l as [|[m| |] [|[t| |] [|]]]; try discriminate.
    intros E; injection E as <-; apply B.
  - destruct (Nat.leb 3 (List.length l)); [|discriminate]. unfold ParseEntityName_3.
    destruct l as [|[s0| |] l]; try discriminate.
    destruct (String.eqb s0 "./"). { unfold ParseEntityNameRelative.
      destruct l as [|[m| |] [|[t| |] [|]]]; try discriminate. destruct (relative_module _ _); [|discriminate].
      intros E; injection E as <-; apply B. }
    destruct (String.eqb s0 "@"). { unfold ParseEntityNameLocation.
      destruct l as [|[r| |] [|[m| |] [|[t| |] [|]]]]; try discriminate. destruct (GlobalName _ _ _); [|discriminate].
      intros E; injection E as <-; apply B. }
    destruct (String.eqb s0 "#"); [discriminate|]. destruct (_ || _)%bool; [|discriminate].
    unfold ParseEntityNameFSReference. destruct l as [|[m| |] [|[t| |] [|]]]; try discriminate.
    + destruct (_ || _)%bool; [|discriminate]. intros E; injection E as <-; apply B.
    + intros E; injection E as <-; apply B.
Qed.

Lemma file_marker_ref s k : file_marker s k -> get_ref_type s = k.
Proof. intros [[-> ->]|[[-> ->]|[[-> ->]|[-> ->]]]]; reflexivity. Qed.

Lemma file_marker_test s :
  (String.eqb s "FILE" || String.eqb s "TREE" || String.eqb s "GLOB" || String.eqb s "SYMLINK")%bool = true ->
  file_marker s (get_ref_type s).
Proof.
  intros E. rewrite !orb_true_iff, !String.eqb_eq in E.
  destruct E as [[[->| ->]| ->]| ->]; unfold file_marker; cbn; tauto.
Qed.

Lemma parse_refers cur src e : in_normal_form (n_module cur) -> ~ lenient cur src ->
  (parse src (Named cur) = Some e <-> exists n, e = Named n /\ refers bindings cur src n).
Proof.
  intros NF NL.
  assert (forall t k, EntityName (n_repo cur) (n_module cur) t k = Named (mkNamed (n_repo cur) (n_module cur) t k)) as Here.
  { intros t k. unfold EntityName, NamedTarget. now rewrite (normal_form_fixed _ NF). }
  split.
  - cbn [ParseEntityName]. destruct src as [s|l|]; [| |discriminate].
    + rewrite Here. intros E; injection E as <-. eexists. split; [reflexivity|]. constructor.
    + destruct (Nat.eqb_spec (List.length l) 2) as [L|L].
      * unfold ParseEntityName_2. destruct l as [|[m| |] [|[t| |] [|]]]; try discriminate.
        intros E; injection E as <-. eexists. split; [unfold EntityName, NamedTarget; rewrite normal_module_dirs; reflexivity|].
        constructor.
      * destruct (Nat.leb 3 (List.length l)); [|discriminate]. unfold ParseEntityName_3.
        destruct l as [|[s0| |] l]; try discriminate.
        destruct (String.eqb_spec s0 "./") as [->|N1].
        { unfold ParseEntityNameRelative. destruct l as [|[rel| |] [|[t| |] [|]]]; try discriminate.
          destruct (is_absolute rel) eqn:AR; [exfalso; apply NL; exists rel, t; auto|].
          rewrite (relative_module_exact _ _ (normal_form_relative _ NF) AR).
          set (w := walk false (split_slash (n_module cur) ++ split_slash rel)) in *.
          destruct (Nat.eqb_spec (up w) 0) as [U|U].
          - intros E; injection E as <-. eexists. split.
            + unfold EntityName, NamedTarget. rewrite normal_form_fixed; [reflexivity|].
              exists (rev (down w)). split; [|reflexivity]. apply Forall_rev.
              assert (wf_place false w) as [F _].
              { unfold w. apply fold_wf; [split; [constructor|reflexivity]|]. apply Forall_app. split; apply split_sfree. }
              eapply Forall_impl; [|exact F]. intros a. apply okname_plain.
            + constructor; [exact AR|]. now apply up_zero_never_above.
          - destruct (Nat.eqb_spec (up w) 1) as [U1|U1]; [|discriminate].
            destruct (down w) eqn:D; [|discriminate]. exfalso. apply NL. exists rel, t. split; [reflexivity|]. right.
            fold w. destruct w as [u d]. cbn in U1, D. now subst. }
        destruct (String.eqb_spec s0 "@") as [->|N2].
        { unfold ParseEntityNameLocation. destruct l as [|[r| |] [|[m| |] [|[t| |] [|]]]]; try discriminate.
          unfold GlobalName. destruct (bindings (n_repo cur)) as [bs|] eqn:B; [|discriminate].
          destruct (alookup r bs) as [r'|] eqn:A; [|discriminate]. intros E; injection E as <-.
          eexists. split; [unfold EntityName, NamedTarget; rewrite normal_module_dirs; reflexivity|].
          eapply r_repository; eassumption. }
        destruct (String.eqb_spec s0 "#") as [->|N3]; [discriminate|].
        destruct (_ || _)%bool eqn:T; [|discriminate]. apply file_marker_test in T.
        unfold ParseEntityNameFSReference. destruct l as [|x [|[t| |] [|]]]; try discriminate.
        rewrite Here. destruct x as [m| |]; [| |discriminate].
        { destruct (String.eqb m "." || String.eqb m (n_module cur))%bool eqn:M; [|discriminate].
          intros E; injection E as <-. eexists. split; [reflexivity|]. constructor; [exact T|].
          rewrite orb_true_iff, !String.eqb_eq in M. destruct M as [->| ->]; auto. }
        { intros E; injection E as <-. eexists. split; [reflexivity|]. constructor; auto. }
  - intros (n & -> & R). destruct R as [t|m t|rel t AR NA|local bs r m t B A|s k middle f F M]; cbn [ParseEntityName].
    + now rewrite Here.
    + cbn. unfold EntityName, NamedTarget. now rewrite normal_module_dirs.
    + cbn [List.length Nat.eqb Nat.leb]. cbn [ParseEntityName_3]. cbn [String.eqb Ascii.eqb Bool.eqb].
      unfold ParseEntityNameRelative. rewrite (relative_module_complete _ _ (normal_form_relative _ NF) AR NA).
      unfold EntityName, NamedTarget. rewrite normal_form_fixed; [reflexivity|]. eexists. split; [|reflexivity].
      apply Forall_rev.
      assert (wf_place false (walk false (split_slash (n_module cur) ++ split_slash rel))) as [F _].
      { apply fold_wf; [split; [constructor|reflexivity]|]. apply Forall_app. split; apply split_sfree. }
      eapply Forall_impl; [|exact F]. intros a. apply okname_plain.
    + cbn [List.length Nat.eqb Nat.leb]. cbn [ParseEntityName_3]. cbn [String.eqb Ascii.eqb Bool.eqb].
      unfold ParseEntityNameLocation, GlobalName. rewrite B, A. unfold EntityName, NamedTarget.
      now rewrite normal_module_dirs.
    + cbn [List.length Nat.eqb Nat.leb]. pose proof (file_marker_ref s k F) as G.
      destruct F as [[-> ->]|[[-> ->]|[[-> ->]|[-> ->]]]]; cbn [ParseEntityName_3]; cbn [String.eqb Ascii.eqb Bool.eqb orb];
        unfold ParseEntityNameFSReference; rewrite Here, G;
        (destruct M as [->|[->| ->]]; [reflexivity|reflexivity|rewrite String.eqb_refl, orb_true_r; reflexivity]).
Qed.

(** ** JSON and expressions *)

Lemma element_agree j : element_of_expr (FromJson j) = element_of_json j.
Proof. destruct j; reflexivity. Qed.

Lemma source_agree j : source_of_expr (FromJson j) = source_of_json j.
Proof.
  destruct j; try reflexivity. cbn [FromJson source_of_expr source_of_json]. f_equal. rewrite map_map.
  apply map_ext. exact element_agree.
Qed.

Lemma parse_agree j cur : ParseEntityNameFromExpression bindings (FromJson j) cur = ParseEntityNameFromJson bindings j cur.
Proof. unfold ParseEntityNameFromExpression, ParseEntityNameFromJson. now rewrite source_agree. Qed.

(** ** Printing *)

Lemma ToJson_inj a b : ToJson a = ToJson b -> a = b.
Proof.
  destruct a as [[r m t k]|r n], b as [[r' m' t' k']|r' n'].
  - destruct k, k'; cbn; intros E; congruence.
  - destruct k; discriminate.
  - destruct k'; discriminate.
  - intros E. cbn in E. congruence.
Qed.

Lemma parse_printed n cur :
  ParseEntityNameFromJson bindings (ToJson (Named n)) (Named cur) =
  match n_ref n with
  | RTarget => match GlobalName bindings (n_repo cur) (n_repo n) with
               | Some r => Some (Named (mkNamed r (normal_module_name (n_module n)) (n_name n) RTarget))
               | None => None
               end
  | _ => None
  end.
Proof. destruct n as [r m t k]. destruct k; reflexivity. Qed.
End Parse.

(** ** The order *)

Lemma ascii_cmp_refl x : Ascii.compare x x = Eq.
Proof. unfold Ascii.compare. apply N.compare_refl. Qed.

Lemma cmp_refl a : cmp_str a a = Eq.
Proof. unfold cmp_str. induction a as [|x a IH]; cbn; [reflexivity|]. now rewrite ascii_cmp_refl. Qed.

Lemma ascii_compare_trans x y z : Ascii.compare x y = Lt -> Ascii.compare y z = Lt -> Ascii.compare x z = Lt.
Proof. unfold Ascii.compare. rewrite !N.compare_lt_iff. apply N.lt_trans. Qed.

Lemma cmp_trans a : forall b c, cmp_str a b = Lt -> cmp_str b c = Lt -> cmp_str a c = Lt.
Proof.
  unfold cmp_str. induction a as [|x a IH]; intros [|y b] [|z c]; cbn; try discriminate; try reflexivity.
  destruct (Ascii.compare x y) eqn:E1; try discriminate; destruct (Ascii.compare y z) eqn:E2; try discriminate.
  - apply Ascii.compare_eq_iff in E1, E2. subst. intros A B.
    rewrite ascii_cmp_refl. eauto.
  - apply Ascii.compare_eq_iff in E1. subst. rewrite E2. reflexivity.
  - apply Ascii.compare_eq_iff in E2. subst. rewrite E1. reflexivity.
  - rewrite (ascii_compare_trans _ _ _ E1 E2). reflexivity.
Qed.

Lemma cmp_antisym a b : cmp_str a b = CompOpp (cmp_str b a).
Proof. apply String.compare_antisym. Qed.

Lemma cmp_eq a b : cmp_str a b = Eq <-> a = b.
Proof. split; [apply String.compare_eq_iff|intros ->; apply cmp_refl]. Qed.

(** Lexicographic comparison of two components. *)
Definition lex (a b : string) (c : bool) : bool := match cmp_str a b with Lt => true | Gt => false | Eq => c end.

Lemma lex_true a b c : lex a b c = true <-> (cmp_str a b = Lt \/ (a = b /\ c = true)).
Proof.
  unfold lex. destruct (cmp_str a b) eqn:E.
  - apply cmp_eq in E. subst. intuition congruence.
  - split; auto.
  - split; [discriminate|]. intros [|[-> _]]; [discriminate|]. rewrite cmp_refl in E. discriminate.
Qed.

Lemma named_ltb_lex x y :
  named_ltb x y = lex (n_repo x) (n_repo y) (lex (n_module x) (n_module y) (lex (n_name x) (n_name y)
                    (Nat.ltb (ref_nat (n_ref x)) (ref_nat (n_ref y))))).
Proof. reflexivity. Qed.

Lemma ref_nat_inj a b : ref_nat a = ref_nat b -> a = b.
Proof. destruct a, b; cbn; congruence. Qed.

Lemma named_eqb_eq x y : named_eqb x y = true <-> x = y.
Proof.
  unfold named_eqb. rewrite !andb_true_iff, !String.eqb_eq, Nat.eqb_eq. split.
  - intros [[[A B] C] D]. apply ref_nat_inj in D. destruct x, y; cbn in *; congruence.
  - intros ->. auto.
Qed.

Lemma named_irrefl x : named_ltb x x = false.
Proof. unfold named_ltb. rewrite !cmp_refl. apply Nat.ltb_irrefl. Qed.

Lemma lex_trans a b c p q r : (p = true -> q = true -> r = true) -> lex a b p = true -> lex b c q = true -> lex a c r = true.
Proof.
  intros T A B. apply lex_true in A, B. apply lex_true.
  destruct A as [A|[-> A]], B as [B|[<- B]]; [left; eapply cmp_trans; eassumption|auto|auto|right; auto].
Qed.

Lemma named_trans x y z : named_ltb x y = true -> named_ltb y z = true -> named_ltb x z = true.
Proof.
  rewrite !named_ltb_lex. apply lex_trans, lex_trans, lex_trans.
  rewrite !Nat.ltb_lt. lia.
Qed.

Lemma lex_total a b p q (P : Prop) : (a = b -> p = true \/ q = true \/ P) -> lex a b p = true \/ lex b a q = true \/ (a = b /\ P).
Proof.
  intros T. destruct (cmp_str a b) eqn:E.
  - apply cmp_eq in E. subst. destruct (T eq_refl) as [A|[A|A]].
    + left. apply lex_true. auto.
    + right. left. apply lex_true. auto.
    + auto.
  - left. apply lex_true. auto.
  - right. left. apply lex_true. left. rewrite cmp_antisym, E. reflexivity.
Qed.

Lemma named_total x y : named_ltb x y = true \/ named_ltb y x = true \/ x = y.
Proof.
  rewrite !named_ltb_lex.
  assert (forall A B (P Q : Prop), (P -> Q) -> A \/ B \/ P -> A \/ B \/ Q) as W by tauto.
  eapply W; [|apply (lex_total _ _ _ _ (n_module x = n_module y /\ n_name x = n_name y /\ n_ref x = n_ref y)); intros _].
  { intros (A & B & C & D). destruct x, y; cbn in *; congruence. }
  eapply W; [|apply (lex_total _ _ _ _ (n_name x = n_name y /\ n_ref x = n_ref y)); intros _]; [tauto|].
  eapply W; [|apply (lex_total _ _ _ _ (n_ref x = n_ref y)); intros _]; [tauto|].
  rewrite !Nat.ltb_lt. destruct (Nat.lt_trichotomy (ref_nat (n_ref x)) (ref_nat (n_ref y))) as [|[E|]]; auto.
  apply ref_nat_inj in E. auto.
Qed.

Lemma anonymous_lex r n r' n' : anonymous_ltb r n r' n' = lex r r' (ltb_str n n').
Proof.
  unfold anonymous_ltb, ltb_str, lex. rewrite (cmp_antisym r' r). destruct (cmp_str r r'); reflexivity.
Qed.

Lemma entity_irrefl a : entity_ltb a a = false.
Proof.
  destruct a; cbn; [apply named_irrefl|]. rewrite anonymous_lex. unfold lex, ltb_str. now rewrite !cmp_refl.
Qed.

Lemma entity_trans a b c : entity_ltb a b = true -> entity_ltb b c = true -> entity_ltb a c = true.
Proof.
  destruct a, b, c; cbn; try discriminate; try reflexivity; [apply named_trans|].
  rewrite !anonymous_lex. apply lex_trans. unfold ltb_str.
  destruct (cmp_str target_node target_node0) eqn:E; try discriminate.
  destruct (cmp_str target_node0 target_node1) eqn:F; try discriminate.
  intros _ _. now rewrite (cmp_trans _ _ _ E F).
Qed.

Lemma entity_total a b : entity_ltb a b = true \/ entity_ltb b a = true \/ a = b.
Proof.
  destruct a as [x|r n], b as [y|r' n']; cbn; auto.
  - destruct (named_total x y) as [|[| ->]]; auto.
  - rewrite !anonymous_lex.
    destruct (lex_total r r' (ltb_str n n') (ltb_str n' n) (n = n')) as [|[|[-> ->]]]; auto.
    intros _. unfold ltb_str. rewrite (cmp_antisym n' n). destruct (cmp_str n n') eqn:E; auto. apply cmp_eq in E. auto.
Qed.

Lemma entity_eqb_eq a b : entity_eqb a b = true <-> a = b.
Proof.
  destruct a, b; cbn; try (split; discriminate).
  - rewrite named_eqb_eq. split; congruence.
  - rewrite andb_true_iff, !String.eqb_eq. split; [intros [-> ->]; reflexivity|intros E; injection E; auto].
Qed.
