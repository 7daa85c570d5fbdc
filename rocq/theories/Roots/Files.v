(** What a root in the file system answers. *)
From Coq Require Import String Ascii List Bool Arith Lia.
From Verif Require Import Common.Strs Path.Spec Path.Model Path.Proofs Path.Proofs2 Symlinks.Paths.
From Verif Require Import Roots.Model Roots.Spec Roots.Paths Roots.Markers Roots.Lookups Roots.Answers.
Import ListNotations.
Local Open Scope string_scope.
Local Open Scope list_scope.
Local Open Scope nat_scope.

(** ** Walking along plain names *)

Lemma at_path_prefix n p q m : at_path n (p ++ q) = Some m -> q <> [] -> exists es, at_path n p = Some (Directory es).
Proof.
  rewrite at_path_app. destruct (at_path n p) as [x|]; [|discriminate]. destruct q as [|c q]; [congruence|]. intros E _.
  destruct x as [| | |es]; try discriminate E. eauto.
Qed.

Lemma walk_names fs k segs : forall cur, Forall plain segs ->
  (forall a b c, segs = a ++ b -> b <> [] -> a <> [] -> at_path fs (cur ++ a) <> Some (SymLink c)) ->
  match os_walk (S k) fs cur segs with
  | Some q => q = cur ++ segs
  | None => at_path fs (cur ++ segs) = None
  end.
Proof.
  induction segs as [|s r IH]; intros cur F L; [cbn; now rewrite app_nil_r|].
  inversion F as [|? ? (P1 & P2 & P3 & P4) F']; subst. cbn [os_walk].
  destruct (String.eqb_spec s ""); [contradiction|]. destruct (String.eqb_spec s "."); [contradiction|]. cbn [orb].
  destruct (String.eqb_spec s ".."); [contradiction|].
  destruct r as [|s' r]; [reflexivity|].
  assert (cur ++ s :: s' :: r = (cur ++ [s]) ++ s' :: r) as EA by (rewrite <- app_assoc; reflexivity).
  destruct (at_path fs (cur ++ [s])) as [[x c|c| |es]|] eqn:A;
    try (rewrite EA, at_path_app, A; reflexivity).
  - exfalso. apply (L [s] (s' :: r) c eq_refl ltac:(discriminate) ltac:(discriminate) A).
  - rewrite EA. apply (IH (cur ++ [s]) F'). intros a b c E NB NA.
    rewrite <- app_assoc. apply (L (s :: a) b c); [now rewrite E|exact NB|discriminate].
Qed.

Lemma walk_directories fs k rs : forall cur segs es, Forall plain rs -> at_path fs (cur ++ rs) = Some (Directory es) ->
  segs <> [] -> os_walk (S k) fs cur (rs ++ segs) = os_walk (S k) fs (cur ++ rs) segs.
Proof.
  induction rs as [|s r IH]; intros cur segs es F A N; [now rewrite app_nil_r|].
  inversion F as [|? ? (P1 & P2 & P3 & P4) F']; subst. cbn [app os_walk].
  destruct (String.eqb_spec s ""); [contradiction|]. destruct (String.eqb_spec s "."); [contradiction|]. cbn [orb].
  destruct (String.eqb_spec s ".."); [contradiction|].
  assert (cur ++ s :: r = (cur ++ [s]) ++ r) as EA by (rewrite <- app_assoc; reflexivity). rewrite EA in A |- *.
  assert (exists es', at_path fs (cur ++ [s]) = Some (Directory es')) as [es' A'].
  { destruct r as [|s' r]; [rewrite app_nil_r in A; eauto|]. eapply at_path_prefix; [exact A|discriminate]. }
  pose proof (IH (cur ++ [s]) segs es F' A N) as W.
  rewrite A'. destruct (r ++ segs) eqn:E; [apply app_eq_nil in E; destruct E; contradiction|]. exact W.
Qed.

Section Pure.
Variable t : item.
Variable ign : bool.
Let T := shown ign t.
Hypothesis P : proper t.

Definition readable_directory (es : list (string * item)) : Prop := ign = false -> directly_valid es.

Lemma at_shown ps : match at_path t ps with
  | Some x => at_path T ps = Some (shown ign x) \/ (ign = true /\ at_path T ps = None)
  | None => at_path T ps = None
  end.
Proof.
  unfold T. revert P. generalize t. induction ps as [|c ps IH]; intros n PN; [now left|]. cbn [at_path].
  destruct n as [x c'|c'| |es]; try (now destruct ign). rewrite shown_dir. cbn [at_path]. rewrite alookup_show.
  destruct (PN [] es eq_refl) as [ND _].
  destruct (alookup c es) as [m|] eqn:L.
  - destruct (alookup c (vis ign es)) as [m'|] eqn:LV.
    + rewrite (vis_lookup _ _ _ _ ND LV) in L. injection L as ->. cbn [option_map]. apply IH.
      intros q es' Q. apply (PN (c :: q)). cbn. now rewrite (vis_lookup _ _ _ _ ND LV).
    + cbn [option_map]. destruct (Bool.bool_dec ign true) as [E|E].
      * destruct (at_path m ps); [right; auto|reflexivity].
      * assert (ign = false) as E' by now destruct ign. rewrite E' in LV. cbn in LV. congruence.
  - assert (alookup c (vis ign es) = None) as ->; [|reflexivity].
    destruct (alookup c (vis ign es)) as [m|] eqn:LV; [|reflexivity]. rewrite (vis_lookup _ _ _ _ ND LV) in L. discriminate.
Qed.

Lemma shown_directory_at ps es : at_path T ps = Some (Directory es) <->
  exists raw, at_path t ps = Some (Directory raw) /\ es = show ign raw.
Proof.
  unfold T. revert P. generalize t. induction ps as [|c ps IH]; intros n PN.
  - cbn. split.
    + intros E. destruct n as [| | |raw]; try (destruct ign; discriminate). rewrite shown_dir in E. injection E as <-. eauto.
    + intros (raw & E & ->). injection E as ->. now rewrite shown_dir.
  - cbn [at_path]. destruct n as [x c'|c'| |raw];
      try (split; [destruct ign; discriminate|intros (? & E & _); discriminate]).
    rewrite shown_dir. cbn [at_path]. rewrite alookup_show. destruct (PN [] raw eq_refl) as [ND _].
    destruct (alookup c (vis ign raw)) as [m|] eqn:LV.
    + cbn [option_map]. rewrite (vis_lookup _ _ _ _ ND LV). apply IH.
      intros q es' Q. apply (PN (c :: q)). cbn. now rewrite (vis_lookup _ _ _ _ ND LV).
    + cbn [option_map]. split; [discriminate|]. intros (raw' & E & _).
      destruct (alookup c raw) as [m|] eqn:L; [|discriminate]. exfalso.
      assert (ordinary m = true) as O.
      { destruct m; try reflexivity; destruct ps; discriminate E. }
      apply alookup_In in L.
      assert (In (c, m) (vis ign raw)) as I.
      { destruct ign; [|exact L]. cbn. apply filter_In. auto. }
      rewrite (In_alookup _ _ _ (vis_nodup _ _ ND) I) in LV. discriminate.
Qed.

Lemma fs_entries_spec raw e : (forall f, In (f, Special) raw -> ign = true \/ True) ->
  fs_entries raw ign = Some e <-> readable_directory raw /\ e = typed (vis ign raw).
Proof.
  clear T P t.
  intros _. unfold fs_entries, readable_directory. destruct ign.
  - rewrite filter_ordinary. split; [intros E; injection E as <-; split; [discriminate|reflexivity]|intros [_ ->]; reflexivity].
  - cbn [vis]. destruct (forallb _ raw) eqn:A.
    + split; [intros E; injection E as <-; split; [intros _|reflexivity]|intros [_ ->]; reflexivity].
      rewrite forallb_forall in A. intros f x I. specialize (A _ I). cbn in A. split.
      * intros ->. discriminate.
      * intros c ->. cbn in A. now apply downward_ok.
    + split; [discriminate|]. intros [D _]. specialize (D eq_refl). exfalso.
      assert (forallb (fun e : string * item => match type_of (snd e) with Some _ => link_ok (snd e) | None => false end) raw = true); [|congruence].
      apply forallb_forall. intros [f x] I. destruct (D f x I) as [D1 D2].
      destruct x as [[] | | |]; cbn; try reflexivity; [apply downward_ok; now apply D2|congruence].
Qed.

Lemma typed_lookup es f : NoDup (map fst es) -> alookup f (typed es) = match alookup f es with Some x => type_of x | None => None end.
Proof.
  induction es as [|[a x] es IH]; intros N; [reflexivity|]. inversion N; subst. unfold typed. cbn [flat_map fst snd]. fold (typed es).
  cbn [alookup]. destruct (type_of x) as [ty|] eqn:TY; cbn [app alookup].
  - destruct (String.eqb f a); [now rewrite TY|now apply IH].
  - rewrite (IH H2). destruct (String.eqb_spec f a) as [->|NE]; [|reflexivity]. rewrite TY.
    destruct (alookup a es) as [y|] eqn:L; [|reflexivity]. exfalso. apply H1. apply alookup_In in L. now apply (in_map fst) in L.
Qed.

Lemma contains_ok raw f : NoDup (map fst raw) -> ContainsBlob (Pairs (typed (vis ign raw))) f = is_some (blob_at (alookup f (vis ign raw))).
Proof.
  intros N. unfold ContainsBlob. cbn [listing]. rewrite typed_lookup by now apply vis_nodup.
  destruct (alookup f (vis ign raw)) as [[[] | | |]|]; reflexivity.
Qed.

Lemma at_snoc ps f : at_path T (ps ++ [f]) =
  match at_path t ps with Some (Directory raw) => option_map (shown ign) (alookup f (vis ign raw)) | _ => None end.
Proof.
  rewrite at_path_app. destruct (at_path T ps) as [[| | |es]|] eqn:A.
  - cbn. destruct (at_path t ps) as [[| | |raw]|] eqn:B; try reflexivity.
    assert (at_path T ps = Some (Directory (show ign raw))) as X by (apply shown_directory_at; eauto). congruence.
  - cbn. destruct (at_path t ps) as [[| | |raw]|] eqn:B; try reflexivity.
    assert (at_path T ps = Some (Directory (show ign raw))) as X by (apply shown_directory_at; eauto). congruence.
  - cbn. destruct (at_path t ps) as [[| | |raw]|] eqn:B; try reflexivity.
    assert (at_path T ps = Some (Directory (show ign raw))) as X by (apply shown_directory_at; eauto). congruence.
  - apply shown_directory_at in A. destruct A as (raw & -> & ->). cbn. rewrite alookup_show. now destruct (alookup f (vis ign raw)).
  - destruct (at_path t ps) as [[| | |raw]|] eqn:B; try reflexivity.
    assert (at_path T ps = Some (Directory (show ign raw))) as X by (apply shown_directory_at; eauto). congruence.
Qed.

Lemma blob_at_shown o : blob_at (option_map (shown ign) o) = blob_at o.
Proof. destruct o as [x|]; [apply shown_blob|reflexivity]. Qed.

Lemma no_link_snoc ps f : no_link_before t (ps ++ [f]) -> no_link_before t ps.
Proof. intros L a b c E N. apply (L a (b ++ [f]) c); [now rewrite E, app_assoc|]. intros X. apply app_eq_nil in X. now destruct X. Qed.

Lemma blob_shown_at ps b : blob_at (at_path T ps) = Some b -> exists x, at_path t ps = Some x /\ as_blob x = Some b.
Proof.
  intros E. pose proof (at_shown ps) as S. destruct (at_path t ps) as [x|].
  - exists x. split; [reflexivity|]. destruct S as [S|[_ S]]; rewrite S in E; [|discriminate]. cbn in E. now rewrite shown_blob in E.
  - rewrite S in E. discriminate.
Qed.
End Pure.

Section Root.
Variable fs : item.
Variable d : string.
Variable t : item.
Hypothesis RD : root_dir fs d t.

Lemma root_append p : is_absolute p = false -> exists rs, Forall plain rs /\ at_path fs rs = Some t /\
  split_slash (append d p) = "" :: rs ++ split_slash p.
Proof.
  intros A. destruct RD as (rs & F & D & E & _). exists rs. split; [exact F|]. split; [exact E|].
  unfold append. rewrite A. destruct rs as [|n rs].
  - cbn in D. subst d. cbn [has_filename]. change (has_filename "/") with false. exact (split_app "" p).
  - pose proof (plain_goods _ F) as G.
    rewrite D, (has_filename_pre_join true (n :: rs) ltac:(discriminate) G : has_filename ("/" ++ join_slash (n :: rs))%string = true).
    rewrite split_app. rewrite (split_app "" (join_slash (n :: rs)) : split_slash ("/" ++ join_slash (n :: rs))%string = _).
    rewrite split_join; [reflexivity|discriminate|now apply goodname_sfree].
Qed.

Lemma root_lstat ps : Forall plain ps -> ps <> [] -> no_link_before t ps -> lstat fs (append d (join_slash ps)) = at_path t ps.
Proof.
  intros F N L. destruct (root_append (join_slash ps) (proj1 (join_place ps F))) as (rs & FR & E & S).
  destruct RD as (_ & _ & _ & _ & es & ET). unfold lstat. rewrite S, split_join by (try exact N; apply goodname_sfree, plain_goods, F).
  change (os_walk 40 fs [] ("" :: rs ++ ps)) with (os_walk 40 fs [] (rs ++ ps)).
  rewrite (walk_directories fs 39 rs [] ps es FR ltac:(cbn [app]; congruence) N). cbn [app].
  pose proof (walk_names fs 39 ps rs F) as W.
  assert (forall a b c, ps = a ++ b -> b <> [] -> a <> [] -> at_path fs (rs ++ a) <> Some (SymLink c)) as L'.
  { intros a b c E1 NB _. rewrite at_path_app, E. now apply (L a b c). }
  specialize (W L'). rewrite at_path_app, E in W.
  destruct (os_walk 40 fs rs ps) as [q|]; [subst q; now rewrite at_path_app, E|now rewrite W].
Qed.

Lemma root_lstat_top : lstat fs (append d ".") = Some t.
Proof.
  destruct (root_append "." eq_refl) as (rs & FR & E & S). destruct RD as (_ & _ & _ & _ & es & ET).
  unfold lstat. rewrite S. change (split_slash ".") with ["."].
  change (os_walk 40 fs [] ("" :: rs ++ ["."])) with (os_walk 40 fs [] (rs ++ ["."])).
  rewrite (walk_directories fs 39 rs [] ["."] es FR ltac:(cbn [app]; congruence) ltac:(discriminate)). exact E.
Qed.

Variable ign : bool.
Let r := FsRoot d ign.
Let T := shown ign t.
Hypothesis P : proper t.

(** ** Directories *)

(** Where directories are, and where they are shown, is the same. *)
Variable tree_id : list (string * item) -> string.
Variables blob_id plain_id : string -> string.
Variable native : bool.

Definition fs_path (path : string) (ps : list string) : Prop :=
  Forall plain ps /\ no_link_before t ps /\ (path = join_slash ps \/ (path = "." /\ ps = [])).

Lemma fs_lstat path ps : fs_path path ps ->
  lstat fs (append d (match path with "" => "." | _ => path end)) = at_path t ps.
Proof.
  intros (F & L & [-> |[-> ->]]); [|exact root_lstat_top].
  destruct ps as [|n ps]; [exact root_lstat_top|].
  rewrite match_ne; [apply root_lstat; [exact F|discriminate|exact L]|].
  apply (pre_join_nonempty false (n :: ps) ltac:(discriminate) (plain_goods _ F)).
Qed.

Lemma fs_entries_of st path ps : fs_path path ps ->
  DirectoryEntriesOf tree_id fs r st path =
  (st, match at_path t ps with
       | Some (Directory raw) => match fs_entries raw ign with Some l => Some (Pairs l) | None => None end
       | _ => Some (Pairs [])
       end).
Proof.
  intros FP. unfold DirectoryEntriesOf, IsDirectory, ReadDirectory, r. rewrite (fs_lstat _ _ FP).
  destruct (at_path t ps) as [[[] c|c| |raw]|]; reflexivity.
Qed.

Lemma fs_given raw : (forall f, In (f, Special) raw -> ign = true) -> given tree_id native (Pairs (typed (vis ign raw))) (show ign raw).
Proof.
  intros NS. split; [|discriminate]. unfold lists. cbn [listing]. rewrite typed_all.
  - unfold show. rewrite map_map. apply map_ext. intros [a x]. cbn. now rewrite shown_type.
  - intros f I. assert (ign = true) as E by (apply (NS f), (vis_incl ign), I). rewrite E in I. apply filter_In in I. destruct I. discriminate.
Qed.

Lemma fs_entries_ok st path ps : fs_path path ps -> (ign = false -> valid t) ->
  exists e, DirectoryEntriesOf tree_id fs r st path = (st, Some e) /\
    match at_path T ps with Some (Directory es) => given tree_id native e es | _ => e = Pairs [] end.
Proof.
  intros FP V. rewrite (fs_entries_of st path ps FP).
  destruct (at_path t ps) as [x|] eqn:A.
  2:{ exists (Pairs []). split; [reflexivity|]. destruct (at_path T ps) as [[| | |es]|] eqn:AT; try reflexivity.
      apply (shown_directory_at t ign P) in AT. destruct AT as (raw & E & _). congruence. }
  destruct x as [y c|c| |raw].
  1-3: exists (Pairs []); (split; [reflexivity|]); destruct (at_path T ps) as [[| | |es]|] eqn:AT; try reflexivity;
       apply (shown_directory_at t ign P) in AT; destruct AT as (raw & E & _); congruence.
  assert (at_path T ps = Some (Directory (show ign raw))) as -> by (apply (shown_directory_at t ign P); eauto).
  assert (readable_directory ign raw) as RDB.
  { intros E. apply valid_direct; [exact (proj1 (P _ _ A))|exact (valid_sub _ _ _ (V E) A)]. }
  rewrite (proj2 (fs_entries_spec ign raw (typed (vis ign raw)) ltac:(auto)) (conj RDB eq_refl)).
  eexists. split; [reflexivity|]. apply fs_given. intros f I. destruct (Bool.bool_dec ign true) as [E|E]; [exact E|].
  assert (ign = false) as E' by now destruct ign. exfalso. destruct (RDB E' f Special I) as [X _]. now apply X.
Qed.

(** ** Source targets *)

Lemma fs_source st repository ms name ns :
  Forall plain ms -> is_absolute name = false -> place_of name = mkPlace 0 (rev ns) -> plain (filename name) ->
  no_link_before t (ms ++ ns) ->
  SourceTarget tree_id blob_id plain_id fs native r st repository (join_slash ms) name =
  (st, match at_path t (removelast (ms ++ ns)) with
       | Some (Directory raw) =>
           match fs_entries raw ign with
           | Some _ => if is_some (blob_at (at_path T (ms ++ ns)))
                       then Some (name, Local (join_slash (ms ++ ns)) repository) else None
           | None => None
           end
       | _ => None
       end).
Proof.
  intros M A PL F L. unfold SourceTarget. rewrite outside_normal.
  assert (never_above (split_slash name)) as NA.
  { apply up_zero_never_above. unfold place_of in PL. rewrite A in PL. now rewrite PL. }
  rewrite (proj2 (nonupwards_exact name) (conj A NA)). cbn [negb].
  destruct (normal_last name ns A F PL) as [-> [ns' EN]].
  assert (Forall plain ns) as NP.
  { destruct (downward_place name A NA) as (ns2 & F2 & PL2). rewrite PL in PL2. injection PL2 as E.
    apply (f_equal (@rev _)) in E. rewrite !rev_involutive in E. now subst. }
  assert (ns <> []) as NN by (rewrite EN; intros X; apply app_eq_nil in X; now destruct X).
  rewrite (append_join ms ns M NP NN). rewrite EN in *. set (f := filename name) in *. rewrite app_assoc in *.
  apply Forall_app in NP. destruct NP as [NP _].
  assert (Forall plain (ms ++ ns')) as MN by (apply Forall_app; auto).
  rewrite (parent_join (ms ++ ns') f MN F). rewrite removelast_last.
  unfold r at 1. rewrite (fs_entries_of st (join_slash (ms ++ ns')) (ms ++ ns')).
  2:{ split; [exact MN|]. split; [exact (no_link_snoc t _ _ L)|now left]. }
  rewrite (at_snoc t ign P).
  destruct (at_path t (ms ++ ns')) as [x|] eqn:AT; [|reflexivity].
  destruct x as [y c|c| |raw]; try reflexivity.
  destruct (fs_entries raw ign) as [l|] eqn:FE; [|reflexivity].
  apply fs_entries_spec in FE; [|auto]. destruct FE as [_ ->].
  rewrite (contains_ok ign raw f (proj1 (P _ _ AT))), blob_at_shown.
  destruct (blob_at (alookup f (vis ign raw))); reflexivity.
Qed.

(** What such a file stands for. *)
Lemma fs_blob ps x : Forall plain ps -> ps <> [] -> no_link_before t ps -> at_path t ps = Some x -> link_ok x = true ->
  forall b, as_blob x = Some b -> forall st,
  snd (BlobType fs r st (join_slash ps)) = Some (fst b) /\ snd (ReadContent fs r st (join_slash ps)) = Some (snd b).
Proof.
  intros F N L A LO b B st. unfold BlobType, ReadContent, r. rewrite (root_lstat ps F N L), A. cbn [snd].
  rewrite blob_type_as, B. split; [reflexivity|]. destruct x as [[] | | |]; cbn in *; try discriminate; rewrite ?LO; now injection B as <-.
Qed.

End Root.
