From Coq Require Import String Ascii List Bool NArith ZArith SpecFloat Lia.
From Verif Require Import Common.Strs Hex.Model Hex.Proofs Expr.Json Expr.JsonSpec Expr.Model Expr.HashSpec Expr.HashProofs.
From Verif Require Import Describe.Model Describe.Spec Describe.Proofs.
From Verif Require Import Result.Model Result.Spec Result.Proofs Result.ReadProofs.
Import ListNotations.
Local Open Scope string_scope.
Local Open Scope list_scope.

Section P.
Variable ndump : num -> string.
Variable H : string -> string.

Local Notation vid := (vid ndump H).
Local Notation rebuild := (rebuild ndump H).
Local Notation forget := (Spec.rebuild ndump H []).

(** ** Origin repositories of known artifacts do not matter *)
Lemma embed_forget v : embed ndump H (forget v) = embed ndump H v.
Proof.
  induction v as [v IH] using value_ind'.
  destruct v as [|b|n|s|j|a|st p f cb|w|nt sf tf|l|m]; cbn [Spec.rebuild embed known_form members] in *; auto.
  - now rewrite art_json_forget.
  - inversion IH as [|? ? H1 IH1]; subst. inversion IH1 as [|? ? H2 IH2]; subst. inversion IH2 as [|? ? H3 _]; subst. congruence.
  - inversion IH as [|? ? H1 IH1]; subst. now rewrite H1.
  - inversion IH as [|? ? H1 IH1]; subst. inversion IH1 as [|? ? H2 IH2]; subst. now rewrite H1, H2.
  - f_equal. rewrite map_map. apply map_ext_in. rewrite Forall_forall in IH. auto.
  - f_equal. rewrite map_map. apply map_ext_in. intros [k x] Hx. f_equal. rewrite Forall_forall in IH. apply IH.
    apply in_map_iff. now exists (k, x).
Qed.
Lemma vid_forget v : vid (forget v) = vid v.
Proof. unfold Model.vid. now rewrite embed_forget. Qed.

Lemma find_forget r a : find_replacement ndump H r (forget_repo a) = find_replacement ndump H r a.
Proof.
  induction r as [|[b i] r IH]; cbn; auto. rewrite IH. unfold art_eqb, art_id. now rewrite art_json_forget.
Qed.
Lemma known_forget a : is_known (forget_repo a) = is_known a.
Proof. now destruct a. Qed.
Lemma forget_twice a : forget_repo (forget_repo a) = forget_repo a.
Proof. now destruct a. Qed.
Lemma known_form_forget r a : known_form ndump H r (forget_repo a) = known_form ndump H r a.
Proof.
  unfold known_form. destruct r as [|x r]; [apply forget_twice|]. rewrite known_forget, forget_twice, find_forget.
  destruct a; cbn; auto.
Qed.
Lemma rebuild_forget r v : rebuild r (forget v) = rebuild r v.
Proof.
  induction v as [v IH] using value_ind'.
  destruct v as [|b|n|s|j|a|st p f cb|w|nt sf tf|l|m]; cbn [Spec.rebuild members] in *; auto.
  - cbn [known_form]. now rewrite known_form_forget.
  - inversion IH as [|? ? H1 IH1]; subst. inversion IH1 as [|? ? H2 IH2]; subst. inversion IH2 as [|? ? H3 _]; subst. congruence.
  - inversion IH as [|? ? H1 IH1]; subst. now rewrite H1.
  - inversion IH as [|? ? H1 IH1]; subst. inversion IH1 as [|? ? H2 IH2]; subst. now rewrite H1, H2.
  - f_equal. rewrite map_map. apply map_ext_in. rewrite Forall_forall in IH. auto.
  - f_equal. rewrite map_map. apply map_ext_in. intros [k x] Hx. f_equal. rewrite Forall_forall in IH. apply IH.
    apply in_map_iff. now exists (k, x).
Qed.

Lemma members_rebuild r v : members (rebuild r v) = map (rebuild r) (members v).
Proof. destruct v; auto. cbn. rewrite !map_map. apply map_ext. now intros [k x]. Qed.
Lemma part_rebuild r v u : part u (rebuild r v) -> exists u0, part u0 v /\ u = rebuild r u0.
Proof.
  intros P. remember (rebuild r v) as x eqn:E. revert v E. induction P as [x|u w x Hw P IH]; intros v E.
  - exists v. split; auto. constructor.
  - subst x. rewrite members_rebuild in Hw. apply in_map_iff in Hw. destruct Hw as (w0 & E0 & Hw0).
    destruct (IH w0 (eq_sym E0)) as (u0 & Pu & Eu). exists u0. split; auto. eapply part_in; eauto.
Qed.
Lemma rebuild_part r v u : part u v -> part (rebuild r u) (rebuild r v).
Proof.
  induction 1 as [x|u w x Hw P IH]; [constructor|]. eapply part_in; eauto. rewrite members_rebuild. now apply in_map.
Qed.

Lemma ser_artifact_forget r a : ser_artifact ndump H r (VArt (forget_repo a)) = ser_artifact ndump H r (VArt a).
Proof.
  unfold ser_artifact, value_ToJson. rewrite known_forget, find_forget. cbn. now rewrite art_json_forget.
Qed.

Lemma ser_list_map f g l : Forall (fun v => forall c, f (g v) c = f v c) l -> forall c,
  ser_list f (map g l) c = ser_list f l c.
Proof.
  induction 1 as [|v l Hv _ IH]; intros c; cbn; auto. rewrite Hv. destruct (f v c); cbn; auto. now rewrite IH.
Qed.
Lemma ser_map_map f (g : value -> value) m : Forall (fun v => forall c, f (g v) c = f v c) (map snd m) -> forall c,
  ser_map f (map (fun p => match p with (k, x) => (k, g x) end) m) c = ser_map f m c.
Proof.
  induction m as [|[k v] m IH]; intros F c; cbn; auto. cbn in F. inversion F as [|? ? Hv F']; subst.
  rewrite Hv. destruct (f v c); cbn; auto. now rewrite IH.
Qed.

Lemma ser_forget r v : forall c, ser ndump H r (forget v) c = ser ndump H r v c.
Proof.
  induction v as [v IH] using value_ind'. intros c. pose proof (vid_forget v) as VF.
  destruct v as [|b|n|s|j|a|st p f cb|w|nt sf tf|l|m]; auto;
    cbn [Spec.rebuild known_form] in VF |- *; cbn [Model.ser]; rewrite VF; (destruct (alookup _ (nodes c)); [reflexivity|]);
    cbn [members] in IH.
  - now rewrite ser_artifact_forget.
  - inversion IH as [|? ? H1 IH1]; subst. inversion IH1 as [|? ? H2 IH2]; subst. inversion IH2 as [|? ? H3 _]; subst.
    rewrite H1. destruct (ser ndump H r st _) as [x|]; cbn [obind]; auto.
    rewrite H3. destruct (ser ndump H r f _) as [y|]; cbn [obind]; auto. now rewrite H2.
  - inversion IH as [|? ? H1 IH1]; subst. now rewrite H1.
  - inversion IH as [|? ? H1 IH1]; subst. inversion IH1 as [|? ? H2 IH2]; subst.
    rewrite H1. destruct (ser ndump H r sf _) as [x|]; cbn [obind]; auto. now rewrite H2.
  - rewrite ser_list_map; auto.
  - rewrite ser_map_map; auto.
Qed.

(** ** The artifacts noted are among the nodes *)
Definition grows (v : value) r : Prop := forall c id c', ser ndump H r v c = Some (id, c') ->
  (forall k, has c k -> has c' k) /\
  ((forall k, In k (provided_artifacts c) -> has c k) -> forall k, In k (provided_artifacts c') -> has c' k).

Lemma has_add id j c k : has c k -> has (add_node id j c) k.
Proof. unfold has, add_node. cbn. rewrite ainsert_lookup. destruct (String.eqb k id); auto. discriminate. Qed.
Lemma has_added id j c : has (add_node id j c) id.
Proof. unfold has, add_node. cbn. rewrite ainsert_lookup, String.eqb_refl. discriminate. Qed.

Lemma grows_list r l : Forall (fun v => grows v r) l -> forall c ids c', ser_list (ser ndump H r) l c = Some (ids, c') ->
  (forall k, has c k -> has c' k) /\
  ((forall k, In k (provided_artifacts c) -> has c k) -> forall k, In k (provided_artifacts c') -> has c' k).
Proof.
  induction 1 as [|v l Hv _ IH]; intros c ids c' E; cbn in E; [injection E as <- <-; auto|].
  apply obind_some in E. destruct E as ([id c1] & E1 & E). apply obind_some in E. destruct E as ([ids2 c2] & E2 & E).
  cbn [fst snd] in *. injection E as <- <-. destruct (Hv _ _ _ E1) as [A1 B1]. destruct (IH _ _ _ E2) as [A2 B2]. auto.
Qed.
Lemma grows_map r m : Forall (fun v => grows v r) (map snd m) -> forall c ids c', ser_map (ser ndump H r) m c = Some (ids, c') ->
  (forall k, has c k -> has c' k) /\
  ((forall k, In k (provided_artifacts c) -> has c k) -> forall k, In k (provided_artifacts c') -> has c' k).
Proof.
  induction m as [|[q v] m IH]; intros F c ids c' E; cbn in E; [injection E as <- <-; auto|].
  cbn in F. inversion F as [|? ? Hv F']; subst.
  apply obind_some in E. destruct E as ([id c1] & E1 & E). apply obind_some in E. destruct E as ([ids2 c2] & E2 & E).
  cbn [fst snd] in *. injection E as <- <-. destruct (Hv _ _ _ E1) as [A1 B1]. destruct (IH F' _ _ _ E2) as [A2 B2]. auto.
Qed.

Lemma ser_grows r v : grows v r.
Proof.
  induction v as [v IH] using value_ind'. intros c id c' E.
  assert (ADD : forall c1 j, (forall k, has c k -> has c1 k) ->
    ((forall k, In k (provided_artifacts c) -> has c k) -> forall k, In k (provided_artifacts c1) -> has c1 k) ->
    Some (vid v, add_node (vid v) j c1) = Some (id, c') ->
    (forall k, has c k -> has c' k) /\
    ((forall k, In k (provided_artifacts c) -> has c k) -> forall k, In k (provided_artifacts c') -> has c' k)).
  { intros c1 j A B X. injection X as <- <-. split; [auto using has_add|]. intros P k Hk. apply has_add. apply B; auto. }
  destruct v as [|b|n|s|j|a|st p f cb|w|nt sf tf|l|m]; cbn [Model.ser] in E;
    (destruct (alookup _ (nodes c)); [injection E as <- <-; auto|]); cbn [members] in IH;
    try (cbn [obind fst snd] in E; eapply ADD; [| |exact E]; auto; fail).
  - apply obind_some in E. destruct E as ([j c1] & E1 & E). apply obind_some in E1. destruct E1 as (j' & E1 & E2).
    injection E2 as <- <-. cbn [fst snd] in E. injection E as <- <-. split; [intros k Hk; now apply has_add|].
    intros P k Hk. cbn in Hk. apply in_app_iff in Hk. destruct Hk as [Hk|[<-|[]]].
    + apply has_add. apply P in Hk. exact Hk.
    + apply has_added.
  - apply obind_some in E. destruct E as ([j cz] & E1 & E). cbn [fst snd] in E.
    apply obind_some in E1. destruct E1 as ([x cx] & Ex & E1). apply obind_some in E1. destruct E1 as ([y cy] & Ey & E1).
    apply obind_some in E1. destruct E1 as ([z cz'] & Ez & E1). cbn [fst snd] in *. injection E1 as <- <-.
    inversion IH as [|? ? Hs IH1]; subst. inversion IH1 as [|? ? Hp IH2]; subst. inversion IH2 as [|? ? Hf _]; subst.
    destruct (Hs _ _ _ Ex) as [A1 B1]. destruct (Hf _ _ _ Ey) as [A2 B2]. destruct (Hp _ _ _ Ez) as [A3 B3].
    eapply ADD; [| |exact E]; auto.
  - apply obind_some in E. destruct E as ([j cz] & E1 & E). cbn [fst snd] in E.
    apply obind_some in E1. destruct E1 as ([x cx] & Ex & E1). cbn [fst snd] in *. injection E1 as <- <-.
    inversion IH as [|? ? Hs IH1]; subst. destruct (Hs _ _ _ Ex) as [A1 B1]. eapply ADD; [| |exact E]; auto.
  - apply obind_some in E. destruct E as ([j cz] & E1 & E). cbn [fst snd] in E.
    apply obind_some in E1. destruct E1 as ([x cx] & Ex & E1). apply obind_some in E1. destruct E1 as ([y cy] & Ey & E1).
    cbn [fst snd] in *. injection E1 as <- <-.
    inversion IH as [|? ? Hs IH1]; subst. inversion IH1 as [|? ? Hp IH2]; subst.
    destruct (Hs _ _ _ Ex) as [A1 B1]. destruct (Hp _ _ _ Ey) as [A2 B2]. eapply ADD; [| |exact E]; auto.
  - apply obind_some in E. destruct E as ([j cz] & E1 & E). cbn [fst snd] in E.
    apply obind_some in E1. destruct E1 as ([x cx] & Ex & E1). cbn [fst snd] in *. injection E1 as <- <-.
    destruct (grows_list r l IH _ _ _ Ex) as [A1 B1]. eapply ADD; [| |exact E]; auto.
  - apply obind_some in E. destruct E as ([j cz] & E1 & E). cbn [fst snd] in E.
    apply obind_some in E1. destruct E1 as ([x cx] & Ex & E1). cbn [fst snd] in *. injection E1 as <- <-.
    destruct (grows_map r m IH _ _ _ Ex) as [A1 B1]. eapply ADD; [| |exact E]; auto.
Qed.

(** ** The provides map *)
Variable u64_of_num : num -> N.
Variable t : hash_type.
Variable r : replacements.
Hypothesis r_ok : replacements_ok t r.

Lemma empty_inv W : Inv ndump H r W empty_collected.
Proof. constructor; cbn; try contradiction. discriminate. Qed.

Section V.
Variable v : value.
Hypothesis V_storable : storable t v.
Hypothesis V_covered : covered ndump H r v.
Hypothesis V_distinct : distinct_hashes ndump H v.
Let fv := forget v.
Let W u := part u fv.

Lemma W_members u w : W u -> In w (members u) -> W w.
Proof. intros Pu Hw. eapply part_trans; [|exact Pu]. now apply part_member. Qed.
Lemma W_distinct u w : W u -> W w -> vid u = vid w -> u = w.
Proof.
  intros Pu Pw E. apply part_rebuild in Pu. apply part_rebuild in Pw.
  destruct Pu as (u0 & Pu & ->), Pw as (w0 & Pw & ->). rewrite !vid_forget in E. now apply V_distinct.
Qed.
Lemma W_storable u : W u ->
  match u with VName _ => False | VResult _ _ _ c => c = true | VArt a => artifact_ok t a | _ => True end.
Proof.
  intros Pu. apply part_rebuild in Pu. destruct Pu as (u0 & Pu & ->). pose proof (V_storable u0 Pu) as S.
  destruct u0; cbn in *; auto. destruct a; cbn in *; auto.
Qed.
Lemma W_writable : writable ndump H r fv.
Proof.
  intros a Pa. apply part_rebuild in Pa. destruct Pa as (u0 & Pu & E). destruct u0; try discriminate.
  cbn in E. injection E as ->. rewrite ser_artifact_forget. now apply (covered_writable ndump H t r r_ok v V_covered).
Qed.

Lemma provides_ok : exists c,
  ser_provides ndump H r v =
    Some (JObj [("entry", JStr (vid v)); ("nodes", JObj (nodes c));
                ("provided_artifacts", strings_json (provided_artifacts c));
                ("provided_nodes", strings_json (provided_nodes c));
                ("provided_results", strings_json (provided_results c))]) /\
  Inv ndump H r W c /\ (forall k, In k (provided_artifacts c) -> has c k) /\
  exists n, forall m, n <= m -> exists s,
    des u64_of_num t (nodes c) (provided_artifacts c) (provided_nodes c) (provided_results c) m (vid v) [] =
      Some (rebuild r v, s).
Proof.
  destruct (ser_total ndump H r fv W_writable empty_collected) as [[id c] E].
  assert (Wfv : W fv) by constructor.
  destruct (ser_ok ndump H r W W_members W_distinct fv empty_collected Wfv (empty_inv W) _ _ E)
    as (-> & I & _ & Hc).
  exists c. split.
  { unfold ser_provides. rewrite <- (ser_forget r v). fold fv. rewrite E. cbn [obind fst snd].
    unfold fv. now rewrite vid_forget. }
  split; [exact I|]. split.
  { apply (proj2 (ser_grows r fv _ _ _ E)). intros k []. }
  destruct (rd_ok ndump H u64_of_num t r r_ok W W_members W_distinct W_storable c I fv Wfv Hc) as [n Hn].
  exists n. intros m Hm. destruct (Hn m Hm [] (good_nil ndump H r W)) as (s & Es & _).
  exists s. unfold fv in Es. rewrite vid_forget, rebuild_forget in Es. exact Es.
Qed.
End V.

Lemma strings_back l : extract_strings (JObj [("x", strings_json l)]) "x" = Some l.
Proof. unfold extract_strings, jfind, strings_json. cbn. rewrite map_map. cbn. induction l; cbn; auto. now rewrite IHl. Qed.

Theorem result_roundtrip stage provides runfiles :
  artifact_map stage -> artifact_map runfiles ->
  storable t stage -> storable t provides -> storable t runfiles ->
  covered ndump H r stage -> covered ndump H r provides -> covered ndump H r runfiles ->
  distinct_hashes ndump H provides ->
  exists j, result_ToJson ndump H r stage provides runfiles = Some j /\
  exists n, forall m, n <= m ->
    result_FromJson u64_of_num t m j = Some (mkR (rebuild r stage) (rebuild r provides) (rebuild r runfiles)).
Proof.
  intros MS MR SS SP SR CS CP CR D.
  destruct (stage_ok ndump H u64_of_num t r r_ok stage MS SS CS) as (js & E1 & F1).
  destruct (stage_ok ndump H u64_of_num t r r_ok runfiles MR SR CR) as (jr & E2 & F2).
  destruct (provides_ok provides SP CP D) as (c & E3 & _ & _ & n & F3).
  eexists. unfold result_ToJson. rewrite E1, E2, E3. cbn [obind]. split; [reflexivity|].
  exists n. intros m Hm. destruct (F3 m Hm) as [s F].
  unfold result_FromJson. unfold jfind. cbn [alookup String.eqb Ascii.eqb Bool.eqb obind].
  rewrite F1. cbn [obind]. rewrite F2. cbn [obind].
  unfold des_provides, extract_string, jfind. cbn [alookup String.eqb Ascii.eqb Bool.eqb obind as_string].
  pose proof (strings_back (provided_artifacts c)) as B1. pose proof (strings_back (provided_nodes c)) as B2.
  pose proof (strings_back (provided_results c)) as B3. unfold extract_strings, jfind in B1, B2, B3 |- *.
  cbn [alookup String.eqb Ascii.eqb Bool.eqb] in B1, B2, B3 |- *. rewrite B1, B2, B3. cbn [obind].
  rewrite F. reflexivity.
Qed.
End P.
