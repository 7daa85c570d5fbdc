(** The conversions that are noted. *)
From Coq Require Import String Ascii List Bool NArith Arith Lia.
From Verif Require Import Common.Strs Hex.Model Hex.Proofs Describe.Model Executor.Wire Rehash.Directory Rehash.DirectoryProofs.
From Verif Require Import GitTree.Model GitTree.Spec GitTree.Ids TreeOps.Spec Rehash.Model Rehash.Spec Rehash.Nodes.
From Verif Require Import Fetch.World Fetch.Model Fetch.Spec Fetch.Proofs Fetch.Safety Fetch.Facts Fetch.Doing.
Import ListNotations.
Local Open Scope string_scope.
Local Open Scope list_scope.
Local Open Scope nat_scope.

Section P.
Variable H : string -> string.
Variable extract : string -> string -> option fnode.
Variable resolve : pragma -> fnode -> option fnode.
Variable serve_says : query -> string -> Prop.
Notation spec := (spec H extract resolve serve_says).
Notation reach := (reach H extract resolve serve_says).

(** All programs avoid what is a [Note] that is not allowed: [wrong a b]. *)
Section Wrong.
Variable wrong : string -> string -> bool.
Definition notes (X : Type) (o : op X) : bool := match o with Note a b => wrong a b | _ => false end.
Notation fine := (never notes).
Ltac walk := repeat (first [exact Logic.I | assumption | progress intros | split; [reflexivity|] |
  match goal with
  | |- context [match ?x with _ => _ end] => first [is_var x; destruct x | destruct x eqn:?]
  end | progress cbn [never] ]).

Variable cfg : config.
Hypothesis W : c_compat cfg && c_serve cfg = true -> forall a, wrong a a = false.

Lemma network_fine a next : fine next -> fine (fetch_from_network a next).
Proof. intros N. unfold fetch_from_network. walk. Qed.
Lemma blob_old_fine gs h next other : fine next -> fine other -> fine (blob_in_old gs h next other).
Proof. intros N O. induction gs as [|g r IH]; cbn [blob_in_old]; auto. cbn [never]. split; [reflexivity|]. intros [[d|]|]; auto. walk. Qed.
Lemma content_fine a next : fine next -> fine (content_cas H cfg a next).
Proof.
  intros N. unfold content_cas. cbv zeta.
  assert (R : fine (if negb (c_compat cfg) && c_remote cfg then Do (RemoteBlob (Native (a_content a))) (fun ok : bool => if ok then next else fetch_from_network a next) else fetch_from_network a next)).
  { pose proof (network_fine a next N). walk. }
  set (remote := if negb (c_compat cfg) && c_remote cfg then _ else _) in *. clearbody remote.
  cbn [never]. split; [reflexivity|]. intros []; [exact N|]. split; [reflexivity|]. intros [[d|]|]; [|apply blob_old_fine; auto|exact Logic.I]; [walk|].
  cbn [never]. split; [reflexivity|]. intros _. split; [reflexivity|]. intros []; [exact N|].
  destruct (c_serve cfg && c_remote cfg) eqn:SR; [|exact R]. cbn [never]. split; [reflexivity|]. intros [d|]; [|exact R]. split; [reflexivity|]. intros []; [|exact R].
  destruct (String.eqb (served_hash d) (a_content a)); [exact N|]. destruct (c_compat cfg) eqn:C; [|exact Logic.I].
  cbn [never]. split; [reflexivity|]. intros [data|]; [|exact Logic.I]. split; [reflexivity|]. intros ok.
  destruct (String.eqb_spec (blob_hash H data) (a_content a)) as [E|E]; [|destruct ok; exact Logic.I]. destruct ok; cbn [andb]; [|exact Logic.I].
  cbn [never notes]. split; [rewrite E; apply W; apply andb_true_iff in SR as [-> _]; reflexivity|]. intros []; [exact N|exact Logic.I].
Qed.
Lemma ensure_fine q hit ig t : fine (ensure_absent cfg q hit ig t).
Proof. unfold ensure_absent. walk. Qed.
Lemma set_fine r hit ab t : fine (set_root cfg r hit ab t).
Proof. unfold set_root. destruct ab; [apply ensure_fine|exact Logic.I]. Qed.
Lemma resolve_fine r hit ab t : fine (resolve_content cfg r hit ab t).
Proof.
  unfold resolve_content. destruct (r_pragma r); [|apply set_fine]. cbn [never]. split; [reflexivity|]. intros [].
  - split; [reflexivity|]. intros [t'|]; [apply set_fine|exact Logic.I].
  - split; [reflexivity|]. intros [t'|]; [|exact Logic.I]. split; [reflexivity|]. intros []; [|exact Logic.I].
    split; [reflexivity|]. intros []; [apply set_fine|exact Logic.I].
Qed.
Lemma extract_fine r ab d : fine (extract_and_import cfg r ab d).
Proof.
  unfold extract_and_import. cbn [never]. split; [reflexivity|]. intros [n|]; [|exact Logic.I]. split; [reflexivity|]. intros [t|]; [|exact Logic.I].
  split; [reflexivity|]. intros []; [|exact Logic.I]. split; [reflexivity|]. intros [t'|]; [apply resolve_fine|exact Logic.I].
Qed.
Lemma local_fine r : fine (locally_known cfg r).
Proof.
  unfold locally_known. cbn [never]. split; [reflexivity|]. intros [t|]; [|exact Logic.I]. split; [reflexivity|].
  intros [t'|]; [apply resolve_fine|exact Logic.I].
Qed.
Lemma old_fine r g : fine (known_in_old cfg r g).
Proof.
  unfold known_in_old. cbn [never]. split; [reflexivity|]. intros [t|]; [|exact Logic.I].
  do 4 (split; [reflexivity|]; intros []; [|exact Logic.I]). apply local_fine.
Qed.
Lemma search_fine gs k f o : (forall g, fine (f g)) -> fine o -> fine (search_old gs k f o).
Proof. intros F O. induction gs as [|g r IH]; cbn [search_old never]; auto. split; [reflexivity|]. intros []; auto. Qed.
Lemma archive_fine r : fine (archive_root H cfg r).
Proof.
  unfold archive_root. cbv zeta. cbn [never]. split; [reflexivity|]. intros []; [apply local_fine|].
  apply search_fine; [intros; apply old_fine|]. destruct (r_absent r && negb (c_fetch_absent cfg)).
  - match goal with |- fine (if c_serve cfg then Do _ (fun x => match x with Found _ _ => _ | NotFound => ?l | Fatal => _ end) else _) => assert (L : fine l) end.
    { cbn [never]. split; [reflexivity|]. intros [d|]; [apply extract_fine|]. split; [reflexivity|]. intros [[d|]|]; [| |exact Logic.I].
      - split; [reflexivity|]. intros []; [|exact Logic.I]. split; [reflexivity|]. intros [d'|]; [apply extract_fine|exact Logic.I].
      - split; [reflexivity|]. intros _. split; [reflexivity|]. intros [d'|]; [apply extract_fine|exact Logic.I]. }
    destruct (c_serve cfg); [|exact L]. cbn [never]. split; [reflexivity|]. intros [t d| |]; [exact Logic.I|exact L|exact Logic.I].
  - apply content_fine. cbn [never]. split; [reflexivity|]. intros [d|]; [apply extract_fine|exact Logic.I].
Qed.
Lemma tree_fine r : fine (tree_root H cfg r).
Proof.
  unfold tree_root. destruct (t_absent r && negb (c_fetch_absent cfg)); [unfold move_cas_tree; walk|].
  unfold git_tree_fetch. cbv zeta.
  assert (O : forall gs t next other, fine next -> fine other -> fine (tree_in_old gs t next other)).
  { induction gs as [|g gs IH]; intros t next other N O; cbn [tree_in_old]; auto. cbn [never]. split; [reflexivity|]. intros [[]|]; [|now apply IH|now apply IH]. walk. }
  cbn [never]. split; [reflexivity|]. intros [[]|]; [exact Logic.I| |exact Logic.I]. apply O; [exact Logic.I|]. unfold move_cas_tree. walk.
Qed.
Lemma commit_fine r : fine (commit_root cfg r).
Proof.
  unfold commit_root. cbv zeta. assert (S : forall t l, fine (if m_absent r && negb (c_fetch_absent cfg) then ensure_absent cfg (commit_query r) true (m_ignore r) t else Ret (Root (Present (m_ignore r) t l)))).
  { intros t l. destruct (m_absent r && negb (c_fetch_absent cfg)); [apply ensure_fine|exact Logic.I]. }
  assert (N : fine (network_fetch cfg r)) by (unfold network_fetch, tag_and_set; walk).
  assert (O : forall gs o, fine o -> fine (commit_in_old gs r o)).
  { induction gs as [|g l IH]; intros o Q; cbn [commit_in_old]; auto. cbn [never]. split; [reflexivity|]. intros [[]|]; [|now apply IH|now apply IH].
    unfold tag_and_set. walk. }
  assert (Ws : forall t, fine (write_and_set r t)) by (intros; unfold write_and_set; walk).
  set (net := network_fetch cfg r) in *. clearbody net.
  cbn [never]. split; [reflexivity|]. intros [[]|]; [| |exact Logic.I].
  - split; [reflexivity|]. intros [t|]; [apply S|exact Logic.I].
  - split; [reflexivity|]. intros [].
    + split; [reflexivity|]. intros [t|]; [|exact Logic.I]. split; [reflexivity|]. intros [t'|]; [apply S|exact Logic.I].
    + apply O. destruct (c_serve cfg); [|exact N]. destruct (m_absent r && negb (c_fetch_absent cfg)); [walk|].
      cbn [never]. split; [reflexivity|]. intros [t d| |]; [|exact N|exact Logic.I].
      match goal with |- context [if place_eqb _ _ then ?l else _] => assert (F : fine l); [|set (fr := l) in *; clearbody fr] end.
      { destruct d as [d|]; [|exact N]. destruct (c_remote cfg); [|exact N]. cbn [never]. split; [reflexivity|]. intros []; [|exact N].
        split; [reflexivity|]. intros [n|]; [|exact Logic.I]. split; [reflexivity|]. intros [t'|]; [|exact Logic.I]. destruct (String.eqb t' t); [apply Ws|exact Logic.I]. }
      cbn [never]. split; [reflexivity|]. intros [[]|]; [apply Ws| |exact Logic.I]. walk.
Qed.
Lemma link_fine l next : (forall n, fine (next n)) -> forall es, fine (link_files l es next).
Proof.
  intros N. induction l as [|[x [h e]] l IH]; intros es; cbn [link_files]; [apply N|]. cbn [never]. split; [reflexivity|]. intros [d|]; [|exact Logic.I].
  destruct (file_name x); [|exact Logic.I]. destruct (add_file x (FFile e d) es); [apply IH|exact Logic.I].
Qed.
Lemma distdir_fine r : fine (distdir_root H cfg r).
Proof.
  assert (I : fine (import_from_cas r)) by (unfold import_from_cas; apply link_fine; intros n; walk).
  assert (A : forall l, fine (all_content H cfg l (import_from_cas r))) by (induction l as [|a l IH]; cbn [all_content]; [exact I|now apply content_fine]).
  pose proof (A (d_fetch r)) as B. clear A. unfold distdir_root. cbv zeta. set (imp := import_from_cas r) in *. clearbody imp.
  set (all := all_content H cfg (d_fetch r) imp) in *. clearbody all.
  cbn [never]. split; [reflexivity|]. intros [].
  - split; [reflexivity|]. intros [t|]; [destruct (d_absent r); [apply ensure_fine|exact Logic.I]|exact Logic.I].
  - destruct (memory_tree H (distdir_key r)); [|exact Logic.I]. walk.
Qed.
Lemma foreign_fine r : fine (foreign_root H cfg r).
Proof.
  unfold foreign_root. cbv zeta. destruct (f_absent r && negb (c_fetch_absent cfg)).
  - destruct (memory_tree H (foreign_key r)); [|exact Logic.I]. walk.
  - cbn [never]. split; [reflexivity|]. intros []; [walk|]. apply content_fine. apply link_fine. intros n. walk.
Qed.
Lemma setup_fine t : fine (setup H (cfg, t)).
Proof.
  destruct t; cbn [setup fst snd]; [apply archive_fine|apply tree_fine|apply commit_fine|apply distdir_fine|apply foreign_fine].
Qed.
End Wrong.

Lemma noted_step X (o : op X) w x w' : spec o w x w' -> w_noted w' = w_noted w \/ exists a b, existT op X o = existT op bool (Note a b) /\ w_noted w' = (a, b) :: w_noted w.
Proof.
  destruct o; cbn [World.spec]; intros S; try (left; subst w'; reflexivity); try (left; destruct S as [-> _]; reflexivity);
    try (left; destruct x; subst w'; reflexivity).
  - left. destruct S as (ds & _ & -> & _). reflexivity.
  - left. destruct S as (o & _ & -> & _). destruct l; reflexivity.
  - left. destruct x; [destruct S as (_ & _ & ->)|destruct S as (ds & _ & ->)]; reflexivity.
  - left. destruct S as (ds & -> & _). reflexivity.
  - destruct x; subst w'; [right; eauto|now left].
  - left. destruct S as (l & ->). reflexivity.
  - left. destruct S as (o & _ & ->). destruct l; reflexivity.
  - left. destruct S as (l & -> & _). reflexivity.
  - left. destruct S as (l & -> & _). reflexivity.
Qed.
Lemma noted_reach (T : Type) (code : T -> program) wrong : (forall t, never (notes wrong) (code t)) ->
  forall w rs, reach T outcome code w rs -> forall a b, In (a, b) (w_noted w) -> wrong a b = false.
Proof.
  intros C w rs R. induction R as [n N|w rs t R IH|w rs1 rs2 t X o k x w' R IH E|w rs1 rs2 r R IH|w w' R IH B]; auto.
  - intros a b [].
  - intros a b I. destruct (noted_step _ _ _ _ _ E) as [F|(a' & b' & F & G)]; [rewrite F in I; auto|]. rewrite G in I. destruct I as [I|I]; auto. injection I as <- <-.
    destruct (reach_never H extract resolve serve_says (notes wrong) T code (fun _ => True) (fun t _ => C t) w _ R t (Do o k) (in_elt _ _ _) Logic.I) as [K _].
    pose proof (f_equal (fun s : {X : Type & op X} => notes wrong (projT1 s) (projT2 s)) F) as J. cbn [projT1 projT2] in J. rewrite K in J. symmetry. exact J.
  - destruct B; auto.
Qed.
Theorem noted_same w rs : happens H extract resolve serve_says w rs -> forall a b, In (a, b) (w_noted w) -> b = a.
Proof.
  intros R a b I. apply (noted_reach _ _ (fun a b => negb (String.eqb b a))) with (a := a) (b := b) in R; auto.
  - apply negb_false_iff, String.eqb_eq in R. exact R.
  - intros [cfg t]. apply setup_fine. intros _ c. now rewrite String.eqb_refl.
Qed.
Theorem none_noted w rs : reach _ _ (fun j : {j : config * task | c_compat (fst j) && c_serve (fst j) = false} => setup H (proj1_sig j)) w rs -> w_noted w = [].
Proof.
  intros R. destruct (w_noted w) as [|[a b] l] eqn:E; auto. exfalso.
  assert (F : true = false); [|discriminate]. apply (noted_reach _ _ (fun _ _ => true)) with (a := a) (b := b) in R; [exact R| |rewrite E; now left].
  intros [[cfg t] J]. cbn [proj1_sig fst] in *. apply setup_fine. congruence.
Qed.
End P.
