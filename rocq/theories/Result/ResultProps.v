(** C47-C49: results of targets as kept in the target cache.

    [ndump] gives the text of a finite double, [H] is the hash function, [u64_of_num] the conversion of a
    JSON floating-point number to a size. Vocabulary: Result/Spec.v and Describe/Spec.v. *)
From Coq Require Import String Ascii List Bool NArith ZArith SpecFloat Lia.
From Verif Require Import Common.Strs Hex.Model Hex.Proofs Expr.Json Expr.JsonSpec Expr.Model Expr.HashSpec Expr.HashProofs Expr.Witness.
From Verif Require Import Describe.Model Describe.Spec Describe.Proofs Describe.DescribeProps.
From Verif Require Import Result.Model Result.Spec Result.Proofs Result.ReadProofs Result.RoundTrip Result.Distinct Result.Entry.
Import ListNotations.
Local Open Scope string_scope.
Local Open Scope list_scope.

(** ** C47 *)

(** Storing the result of a target and reading it back gives the same result, with exactly the
    artifacts that were not known replaced. Missing for the full claim: values where two different parts
    have the same hash (see below). *)
Theorem C47_result_roundtrip_partial : forall ndump H u64_of_num t r stage provides runfiles,
  replacements_ok t r ->
  artifact_map stage -> artifact_map runfiles ->
  storable t stage -> storable t provides -> storable t runfiles ->
  covered ndump H r stage -> covered ndump H r provides -> covered ndump H r runfiles ->
  distinct_hashes ndump H provides ->
  exists j, result_ToJson ndump H r stage provides runfiles = Some j /\
  exists n, forall m, n <= m ->
    result_FromJson u64_of_num t m j =
      Some (mkR (rebuild ndump H r stage) (rebuild ndump H r provides) (rebuild ndump H r runfiles)).
Proof. intros. apply result_roundtrip; auto. Qed.
Print Assumptions C47_result_roundtrip_partial.

(** Hashes are distinct unless the hash function collides, or a result or node inside has the same JSON
    form as a different one. Values without results and nodes meet this trivially. *)
Theorem C47_distinct_hashes : forall ndump H t v, number_text ndump -> fixed_length H ->
  storable t v -> finite_numbers v -> no_collision ndump H v -> no_imitation ndump H v ->
  distinct_hashes ndump H v.
Proof. intros. eapply distinct_from_json; eauto. Qed.
Print Assumptions C47_distinct_hashes.

(** Without replacements, the value read back is the same for all purposes of evaluation: it has the
    same hash and the same JSON form, as has everything inside. *)
Theorem C47_same_value : forall ndump H v, let v' := rebuild ndump H [] v in
  vid ndump H v' = vid ndump H v /\ value_ToJson ndump H v' = value_ToJson ndump H v /\
  value_eqb ndump H v' v = true /\
  (forall u', part u' v' <-> exists u, part u v /\ u' = rebuild ndump H [] u).
Proof.
  intros ndump H v v'. unfold v', vid, value_ToJson, value_eqb. rewrite embed_forget.
  split; [reflexivity|]. split; [reflexivity|]. split.
  - unfold expr_eqb. now rewrite String.eqb_refl.
  - intros u'. split; [apply part_rebuild|]. intros (u & P & ->). now apply rebuild_part.
Qed.
Print Assumptions C47_same_value.

(** A known artifact stays as it is, all others are replaced by what they were built to. *)
Theorem C47_artifacts_replaced : forall ndump H t r v, replacements_ok t r -> storable t v ->
  all_known ndump H r v -> forall a', part (VArt a') (rebuild ndump H r v) ->
  exists d ty, a' = AKnown d ty None /\ digest_ok t ty d /\
    ((exists repo, part (VArt (AKnown d ty repo)) v) \/ exists a i, part (VArt a) v /\ is_known a = false /\
       find_replacement ndump H r a = Some i /\ i_digest i = d /\ i_type i = ty).
Proof.
  intros ndump H t r v R S K a' P. apply part_rebuild in P. destruct P as (u & Pu & E). destruct u; try discriminate.
  cbn in E. injection E as ->. pose proof (K a Pu) as Ka. pose proof (S _ Pu) as Sa. cbn in Sa.
  unfold known_form in *. destruct r as [|x r'] eqn:Er.
  - destruct a as [|d ty repo| | |]; try discriminate. exists d, ty. cbn. eauto.
  - rewrite <- Er in *. destruct (is_known a) eqn:Kn.
    + destruct a as [|d ty repo| | |]; try discriminate. exists d, ty. cbn. eauto.
    + destruct (find_replacement ndump H r a) as [i|] eqn:F; [|congruence].
      exists (i_digest i), (i_type i). split; auto. split.
      * apply find_replacement_in in F. destruct F as [b Hb]. exact (proj1 (Forall_forall _ _) R _ Hb).
      * right. exists a, i. auto.
Qed.
Print Assumptions C47_artifacts_replaced.

(** The full claim fails: a result that provides an artifact and one that provides the map an artifact
    is written as have the same hash, whatever the hash function; only the first of them is stored. *)
Definition ex_real : value :=
  VResult (VMap []) (VMap [("x", VArt (ALocal "a" "r"))]) (VMap []) true.
Definition ex_imitation : value :=
  VResult (VMap []) (VMap [("x", VMap [("data", VMap [("path", VStr "a"); ("repository", VStr "r")]); ("type", VStr "LOCAL")])])
    (VMap []) true.

(** Parts of concrete values, for the examples. *)
Lemma parts_in L v : In v L -> (forall x, In x L -> incl (members x) L) -> forall u, part u v -> In u L.
Proof. intros Hv C u P. induction P as [x|u w x Hw P IH]; auto. apply IH. now apply (C x Hv). Qed.
Lemma map_nodup_inj {A B} (f : A -> B) l : NoDup (map f l) -> forall x y, In x l -> In y l -> f x = f y -> x = y.
Proof.
  induction l as [|a l IH]; cbn; [intros _ x y []|]. intros N. inversion N as [|? ? Na N']; subst.
  intros x y [<-|Hx] [<-|Hy] E; auto.
  - exfalso. apply Na. rewrite E. now apply in_map.
  - exfalso. apply Na. rewrite <- E. now apply in_map.
Qed.
Fixpoint nodupb (l : list string) : bool := match l with [] => true | x :: r => negb (mem x r) && nodupb r end.
Lemma nodupb_ok l : nodupb l = true -> NoDup l.
Proof.
  induction l as [|x l IH]; cbn; [constructor|]. intros E. apply andb_prop in E as [E1 E2]. constructor; auto.
  intros X. apply mem_In in X. now rewrite X in E1.
Qed.
Ltac find_in := first [left; reflexivity | right; find_in].
Ltac closed := intros ? X; cbn in X;
  repeat (destruct X as [X|X]; [subst; intros ? Y; cbn in Y; repeat (destruct Y as [Y|Y]; [subst; unfold In; find_in|]); destruct Y|]); destruct X.

Definition ex_parts : list value :=
  [VList [ex_real; ex_imitation]; ex_real; ex_imitation; VMap [("x", VArt (ALocal "a" "r"))]; VMap []; VArt (ALocal "a" "r");
   VMap [("x", VMap [("data", VMap [("path", VStr "a"); ("repository", VStr "r")]); ("type", VStr "LOCAL")])];
   VMap [("data", VMap [("path", VStr "a"); ("repository", VStr "r")]); ("type", VStr "LOCAL")];
   VMap [("path", VStr "a"); ("repository", VStr "r")]; VStr "LOCAL"; VStr "a"; VStr "r"].
Lemma ex_parts_closed : forall x, In x ex_parts -> incl (members x) ex_parts.
Proof. closed. Qed.
Lemma ex_storable t : storable t (VList [ex_real; ex_imitation]).
Proof.
  intros u P. apply (parts_in ex_parts) in P; [|now left|exact ex_parts_closed].
  cbn in P. repeat (destruct P as [<-|P]; [cbn; auto|]). destruct P.
Qed.

Theorem C47_imitation_refuted : forall ndump u64_of_num t, exists H v,
  (forall x y, H x = H y -> x = y) /\ storable t v /\
  exists j v', result_ToJson ndump H [] (VMap []) v (VMap []) = Some j /\
    result_FromJson u64_of_num t 10 j = Some (mkR (VMap []) v' (VMap [])) /\
    v = VList [ex_real; ex_imitation] /\ v' = VList [ex_real; ex_real] /\ ex_real <> ex_imitation.
Proof.
  intros ndump u t. exists (fun s => s), (VList [ex_real; ex_imitation]). split; [auto|].
  split; [apply ex_storable|].
  eexists. eexists. split; [vm_compute; reflexivity|]. split; [vm_compute; reflexivity|].
  split; [reflexivity|]. split; [reflexivity|discriminate].
Qed.
Print Assumptions C47_imitation_refuted.

(** The hypotheses are met by a target that provides a list of an artifact still to be built, a known
    one, a result and a node; with a hash function without collisions. *)
Definition ex_sha : string := "e69de29bb2d1d6434b8b29ae775ad8c2e48c5391".
Definition ex_known : artifact := AKnown (mkDigest ex_sha false 7) File (Some "repo").
Definition ex_built : artifact := AAction "id" "out".
Definition ex_r : replacements := [(ex_built, mkInfo (mkDigest ex_sha true 0) Tree false)].
Definition ex_res : value := VResult (VMap []) (VMap [("y", VArt ex_built)]) (VMap []) true.
Definition ex_node : value := VNodeAbstract "nt" (VMap [("s", VStr "v")]) (VMap []).
Definition ex_items : value := VList [VArt ex_known; ex_res; ex_node; VNodeValue ex_res].
Definition ex_provides : value := VMap [("x", ex_items); ("z", VArt ex_built)].
Definition ex_stage : value := VMap [("out", VArt ex_built)].
Definition ex_all : list value :=
  [ex_provides; ex_items; VArt ex_known; VArt ex_built; ex_res; ex_node; VNodeValue ex_res; VMap [("y", VArt ex_built)];
   VMap [("s", VStr "v")]; VStr "v"; VMap []].
Lemma ex_all_closed : forall x, In x ex_all -> incl (members x) ex_all.
Proof. closed. Qed.
Definition ident (s : string) : string := s.
Lemma ex_known_ok : artifact_ok GitSHA1 ex_known.
Proof.
  split; [apply hash_ok_b; vm_compute; reflexivity|]. split; [reflexivity|]. cbn. split; [discriminate|]. intros [_ X]; discriminate.
Qed.
Lemma ex_part u : part u ex_provides -> In u ex_all.
Proof. intros P. apply (parts_in ex_all) in P; auto; [now left|exact ex_all_closed]. Qed.
Lemma ex_find : find_replacement toy_ndump ident ex_r ex_built = Some (mkInfo (mkDigest ex_sha true 0) Tree false).
Proof. vm_compute. reflexivity. Qed.
Lemma ex_built_known : is_known (known_form toy_ndump ident ex_r ex_built) = true.
Proof. vm_compute. reflexivity. Qed.
Lemma ex_known_known : is_known (known_form toy_ndump ident ex_r ex_known) = true.
Proof. vm_compute. reflexivity. Qed.
Lemma ex_stage_part u : part u ex_stage -> u = ex_stage \/ u = VArt ex_built.
Proof.
  intros P. apply (parts_in [ex_stage; VArt ex_built]) in P; [|now left|closed]. cbn in P. intuition.
Qed.
Lemma ex_empty_part u : part u (VMap []) -> u = VMap [].
Proof. intros P. inversion P as [|? w ? Hw]; auto. destruct Hw. Qed.

Lemma ex_hypotheses :
  replacements_ok GitSHA1 ex_r /\ artifact_map ex_stage /\ artifact_map (VMap []) /\
  storable GitSHA1 ex_stage /\ storable GitSHA1 ex_provides /\ storable GitSHA1 (VMap []) /\
  all_known toy_ndump ident ex_r ex_stage /\ all_known toy_ndump ident ex_r ex_provides /\ all_known toy_ndump ident ex_r (VMap []) /\
  distinct_hashes toy_ndump ident ex_provides.
Proof.
  split; [constructor; [|constructor]|split; [|split; [|split; [|split; [|split; [|split; [|split; [|split]]]]]]]].
  - split; [apply hash_ok_b; vm_compute; reflexivity|]. split; [reflexivity|]. cbn. tauto.
  - eexists. split; [reflexivity|]. intros k x [E|[]]. injection E as <- <-. eauto.
  - eexists. split; [reflexivity|]. intros k x [].
  - intros u P. apply ex_stage_part in P. destruct P as [->| ->]; cbn; auto.
  - intros u P. apply ex_part in P. cbn in P.
    repeat (destruct P as [<-|P]; [first [exact ex_known_ok|cbn; auto]|]). destruct P.
  - intros u P. apply ex_empty_part in P. now subst.
  - intros a P. apply ex_stage_part in P. destruct P as [P|P]; [discriminate|]. injection P as ->. exact ex_built_known.
  - intros a P. apply ex_part in P. cbn in P.
    repeat (destruct P as [P|P]; [try discriminate P; injection P as <-; first [exact ex_known_known|exact ex_built_known]|]).
    destruct P.
  - intros a P. apply ex_empty_part in P. discriminate.
  - intros u w Pu Pw E. apply ex_part in Pu. apply ex_part in Pw. f_equal.
    refine (map_nodup_inj (vid toy_ndump ident) ex_all _ u w Pu Pw E).
    apply nodupb_ok. vm_compute. reflexivity.
Qed.

Example C47_nonvacuous :
  replacements_ok GitSHA1 ex_r /\ artifact_map ex_stage /\ artifact_map (VMap []) /\
  storable GitSHA1 ex_stage /\ storable GitSHA1 ex_provides /\ storable GitSHA1 (VMap []) /\
  covered toy_ndump ident ex_r ex_stage /\ covered toy_ndump ident ex_r ex_provides /\ covered toy_ndump ident ex_r (VMap []) /\
  distinct_hashes toy_ndump ident ex_provides /\
  rebuild toy_ndump ident ex_r ex_provides <> ex_provides.
Proof.
  destruct ex_hypotheses as (A & B & C & D & E & F & G & I & J & K).
  apply (all_known_covered GitSHA1) in G, I, J; auto.
  repeat match goal with |- _ /\ _ => split; [assumption|] end. vm_compute. discriminate.
Qed.

(** ** C48 *)

(** Whatever is stored: if a result and the list of its artifacts can be read, every artifact of the
    result, at any depth, is in the list. *)
Theorem C48_artifacts_listed : forall u64_of_num t fuel j res infos,
  (forall n, (u64_of_num n < 2 ^ 64)%N) ->
  result_FromJson u64_of_num t fuel j = Some res -> to_artifacts u64_of_num t j = Some infos ->
  forall a, artifact_of (r_stage res) (r_provides res) (r_runfiles res) a ->
  exists i, In i infos /\ a = AKnown (i_digest i) (i_type i) None /\ info_ok t i /\ i_failed i = false.
Proof.
  intros u t fuel j res infos U E S a P. destruct (result_listed u U t fuel j res infos E S) as (L1 & L2 & L3).
  pose proof (infos_ok u U t j infos S) as O. rewrite Forall_forall in O.
  assert (Q : exists i, In i infos /\ a = AKnown (i_digest i) (i_type i) None /\ i_failed i = false).
  { destruct P as [P|[P|P]]; auto. }
  destruct Q as (i & Hi & Ea & F). exists i. auto.
Qed.
Print Assumptions C48_artifacts_listed.

(** An entry made from a target whose artifacts all got known can be read; it lists exactly the
    artifacts of the target, and the export targets implied, of which the target itself is left out. *)
Theorem C48_entry_exact : forall u64_of_num t ndump H r stage provides runfiles implied,
  (forall n, (u64_of_num n < 2 ^ 64)%N) ->
  replacements_ok t r ->
  artifact_map stage -> artifact_map runfiles ->
  storable t stage -> storable t provides -> storable t runfiles ->
  all_known ndump H r stage -> all_known ndump H r provides -> all_known ndump H r runfiles ->
  distinct_hashes ndump H provides ->
  exists j, entry_FromTarget ndump H r stage provides runfiles implied = Some j /\
    (exists n, forall m, n <= m -> result_FromJson u64_of_num t m j =
        Some (mkR (rebuild ndump H r stage) (rebuild ndump H r provides) (rebuild ndump H r runfiles))) /\
    (exists infos, to_artifacts u64_of_num t j = Some infos /\
       forall i, In i infos <-> i_failed i = false /\ exists a, artifact_of stage provides runfiles a /\
          known_form ndump H r a = AKnown (i_digest i) (i_type i) None) /\
    to_implied j = implied /\
    (forall key, Forall (hash_ok t) implied -> to_implied_ids t key j =
       Some (map (fun h => mkInfo (mkDigest h false 0) File false) (filter (fun h => negb (String.eqb h key)) implied))).
Proof. intros. now apply entry_ok_all. Qed.
Print Assumptions C48_entry_exact.

Example C48_nonvacuous :
  exists j infos res, entry_FromTarget toy_ndump ident ex_r ex_stage (VMap [("y", VArt ex_known)]) (VMap []) [ex_sha] = Some j /\
    to_artifacts (fun _ => 0%N) GitSHA1 j = Some infos /\ length infos = 2 /\
    result_FromJson (fun _ => 0%N) GitSHA1 20 j = Some res /\
    to_implied j = [ex_sha] /\ to_implied_ids GitSHA1 ex_sha j = Some [].
Proof.
  do 3 eexists. split; [vm_compute; reflexivity|]. split; [vm_compute; reflexivity|]. split; [reflexivity|].
  split; [vm_compute; reflexivity|]. split; vm_compute; reflexivity.
Qed.

(** ** C49 *)

(** Value nodes are equal exactly if their values are the same, up to collisions of the hash function. *)
Theorem C49_value_nodes_partial : forall ndump H v w, number_text ndump -> fixed_length H ->
  finite ndump H (embed ndump H v) -> finite ndump H (embed ndump H w) ->
  (same ndump H (embed ndump H v) (embed ndump H w) -> node_eqb ndump H (VNodeValue v) (VNodeValue w) = true) /\
  (node_eqb ndump H (VNodeValue v) (VNodeValue w) = true ->
     same ndump H (embed ndump H v) (embed ndump H w) \/ hash_collision ndump H (embed ndump H v) (embed ndump H w)).
Proof.
  intros ndump H v w NT FL Fv Fw. cbn [node_eqb]. unfold value_eqb, expr_eqb. rewrite String.eqb_eq. split.
  - now apply same_hash.
  - now apply hash_same.
Qed.
Print Assumptions C49_value_nodes_partial.

(** Abstract nodes are in general not even equal to themselves. *)
Theorem C49_abstract_nodes_refuted : forall ndump H, H (dump ndump JNull) <> H "{" ->
  exists n, node_eqb ndump H n n = false.
Proof.
  intros ndump H D. exists (VNodeAbstract "t" (VMap []) VNone). cbn [node_eqb].
  assert (E : value_eqb ndump H VNone (VMap []) = false).
  { unfold value_eqb, expr_eqb. apply String.eqb_neq. cbn. exact D. }
  rewrite E. apply andb_false_r.
Qed.
Print Assumptions C49_abstract_nodes_refuted.
