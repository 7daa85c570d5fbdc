(** References to trees and globs. *)
From Coq Require Import String Ascii List Bool Arith Lia.
From Verif Require Import Common.Strs Path.Spec Path.Model Path.Proofs Path.Proofs2 Symlinks.Paths.
From Verif Require Import Roots.Model Roots.Spec Roots.Paths Roots.Markers Roots.Lookups Roots.Answers.
Import ListNotations.
Local Open Scope string_scope.
Local Open Scope list_scope.
Local Open Scope nat_scope.

Lemma height_dir es k : height (Directory es) <= S k -> Forall (fun e => height (snd e) <= k) es.
Proof.
  intros H. apply le_S_n in H. induction es as [|[f x] es IH]; [constructor|]. constructor; [exact (Nat.max_lub_l _ _ _ H)|apply IH; exact (Nat.max_lub_r _ _ _ H)].
Qed.

Lemma normal_plain f : plain f -> ToNormalPath f = f.
Proof.
  intros F. pose proof (norm_append [] f (Forall_nil _) F) as N.
  rewrite ToNormalPath_render. destruct (join_place [f] ltac:(repeat constructor; apply F)) as [A B]. cbn [join_slash rev app] in A, B.
  rewrite A, B. reflexivity.
Qed.

Lemma walk_true_false cs : forall e d, fold_left (step false) cs (mkPlace 0 e) = mkPlace 0 d ->
  fold_left (step true) cs (mkPlace 0 e) = mkPlace 0 d.
Proof.
  induction cs as [|c cs IH]; intros e d E; cbn [fold_left] in *; [exact E|].
  assert (up (step false (mkPlace 0 e) c) = 0) as U.
  { pose proof (fold_up_mono false cs (step false (mkPlace 0 e) c)) as M. rewrite E in M. cbn [up] in M. lia. }
  unfold step in *. cbn [up down] in *.
  destruct (String.eqb c ""); [now apply IH|]. destruct (String.eqb c "."); [now apply IH|].
  destruct (String.eqb c ".."); [|now apply IH]. destruct e; [discriminate U|now apply IH].
Qed.

Lemma module_of path ps : is_absolute path = false -> place_of path = mkPlace 0 (rev ps) ->
  normal_module_name path = join_slash ps.
Proof.
  intros A E. rewrite normal_module_name_eq. unfold place_of in E. rewrite A in E. unfold walk in *.
  rewrite (walk_true_false _ _ _ E). cbn [down]. now rewrite rev_involutive.
Qed.

(** ** Collecting *)

Lemma all_of_ok {K V} (f : state -> K -> state * option V) (inv : state -> Prop) (Q : K -> V -> Prop) ks :
  (forall st k, inv st -> In k ks -> exists st' v, f st k = (st', Some v) /\ inv st' /\ Q k v) ->
  forall st, inv st -> exists st' vs, all_of f st ks = (st', Some vs) /\ inv st' /\ Forall2 Q ks vs.
Proof.
  induction ks as [|k ks IH]; intros H st I; cbn [all_of]; [eauto|].
  destruct (H st k I ltac:(now left)) as (st1 & v & -> & I1 & Q1).
  destruct (IH ltac:(intros; apply H; [assumption|now right]) st1 I1) as (st2 & vs & -> & I2 & Q2). eauto 6.
Qed.

Lemma emplace_lookup (l : list (string * artifact)) : forall acc, Forall plain (map fst l) -> sorted_keys acc ->
  let r := fold_left (fun acc e => aemplace (ToNormalPath (fst e)) (snd e) acc) l acc in
  sorted_keys r /\ forall x, alookup x r = match alookup x acc with Some v => Some v | None => alookup x l end.
Proof.
  induction l as [|[k v] l IH]; intros acc F S; cbn [fold_left].
  - split; [exact S|]. intros x. now destruct (alookup x acc).
  - inversion F as [|? ? F1 F2]; subst. cbn [fst snd] in *. rewrite (normal_plain k F1).
    destruct (IH (aemplace k v acc) F2 (aemplace_sorted _ _ _ S)) as [A B]. split; [exact A|].
    intros x. rewrite B, aemplace_lookup by exact S. cbn [alookup].
    destruct (alookup x acc); [reflexivity|]. now destruct (String.eqb x k).
Qed.

Lemma insert_lookup (l : list (string * artifact)) : forall acc, NoDup (map fst l) -> sorted_keys acc ->
  let r := fold_left (fun acc e => ainsert (fst e) (snd e) acc) l acc in
  sorted_keys r /\ forall x, alookup x r = match alookup x l with Some v => Some v | None => alookup x acc end.
Proof.
  induction l as [|[k v] l IH]; intros acc N S; cbn [fold_left].
  - split; [exact S|]. reflexivity.
  - inversion N as [|? ? N1 N2]; subst. cbn [fst snd] in *.
    destruct (IH (ainsert k v acc) N2 (ainsert_sorted _ _ _ S)) as [A B]. split; [exact A|].
    intros x. rewrite B, ainsert_lookup. cbn [alookup]. destruct (String.eqb_spec x k) as [->|NE]; [|reflexivity].
    assert (alookup k l = None) as -> by (apply alookup_None; exact N1). reflexivity.
Qed.

(** ** Listed entries *)

Section Listed.
Variable e : entries.
Variable es : list (string * item).
Hypothesis L : lists e es.
Hypothesis N : NoDup (map fst es).

Definition names_of (f : object_type -> bool) : list string := map fst (filter (fun x => f (snd x)) (listing e)).

Lemma listed_names : map fst (listing e) = map fst es.
Proof. apply (f_equal (map fst)) in L. rewrite !map_map in L. exact L. Qed.

Lemma listed_in c ty : In (c, ty) (listing e) <-> exists x, In (c, x) es /\ type_of x = Some ty.
Proof.
  split.
  - intros I. apply (in_map (fun x => (fst x, Some (snd x)))) in I. rewrite L in I. cbn in I.
    apply in_map_iff in I. destruct I as ((c' & x) & E & I). injection E as -> E. eauto.
  - intros (x & I & T). apply (in_map (fun x => (fst x, type_of (snd x)))) in I. rewrite <- L in I. cbn in I. rewrite T in I.
    apply in_map_iff in I. destruct I as ((c' & ty') & E & I). injection E as -> ->. exact I.
Qed.

Lemma names_of_in f c : In c (names_of f) <-> exists x ty, In (c, x) es /\ type_of x = Some ty /\ f ty = true.
Proof.
  unfold names_of. rewrite in_map_iff. split.
  - intros ((c' & ty) & <- & I). apply filter_In in I. destruct I as [I F]. apply listed_in in I. destruct I as (x & I & T). eauto.
  - intros (x & ty & I & T & F). exists (c, ty). split; [reflexivity|]. apply filter_In. split; [apply listed_in; eauto|exact F].
Qed.

Lemma names_of_nodup f : NoDup (names_of f).
Proof. apply NoDup_map_filter. now rewrite listed_names. Qed.

Lemma names_of_disjoint f g : (forall ty, f ty = true -> g ty = true -> False) ->
  forall c, In c (names_of f) -> In c (names_of g) -> False.
Proof.
  intros D c A B. apply names_of_in in A, B. destruct A as (x & ty & I & T & F), B as (x' & ty' & I' & T' & F').
  pose proof (In_alookup _ _ _ N I) as E. rewrite (In_alookup _ _ _ N I') in E. injection E as ->. rewrite T in T'.
  injection T' as <-. exact (D ty F F').
Qed.

Lemma NoDup_append {A} (a b : list A) : NoDup a -> NoDup b -> (forall x, In x a -> In x b -> False) -> NoDup (a ++ b).
Proof.
  induction a as [|x a IH]; intros Na Nb D; [exact Nb|]. inversion Na; subst. cbn. constructor.
  - intros I. apply in_app_or in I. destruct I as [I|I]; [contradiction|]. apply (D x); [now left|exact I].
  - apply IH; auto. intros y I J. apply (D y); [now right|exact J].
Qed.

Lemma blobs_nodup : NoDup (names_of IsFileObject ++ names_of IsSymlinkObject).
Proof. apply NoDup_append; [apply names_of_nodup..|]. apply names_of_disjoint. now intros []. Qed.

Lemma all_nodup : NoDup (names_of IsFileObject ++ names_of IsSymlinkObject ++ names_of IsTreeObject).
Proof.
  rewrite app_assoc. apply NoDup_append; [apply blobs_nodup|apply names_of_nodup|]. intros c I.
  apply in_app_or in I. destruct I as [I|I]; revert I; apply names_of_disjoint; now intros [].
Qed.

Lemma blobs_in c : In c (names_of IsFileObject ++ names_of IsSymlinkObject) <-> exists x b, In (c, x) es /\ as_blob x = Some b.
Proof.
  rewrite in_app_iff, !names_of_in. split.
  - intros [(x & ty & I & T & F)|(x & ty & I & T & F)]; exists x; destruct x as [[] | | |]; cbn in T; try discriminate T; injection T as <-;
      try discriminate F; eexists; (split; [exact I|reflexivity]).
  - intros (x & b & I & B). destruct x as [[] | | |]; try discriminate B; [left|left|right]; eexists _, _; (split; [exact I|]; split; reflexivity).
Qed.

Lemma all_in : (forall c, ~ In (c, Special) es) ->
  forall c, In c (names_of IsFileObject ++ names_of IsSymlinkObject ++ names_of IsTreeObject) <-> In c (map fst es).
Proof.
  intros NS c. rewrite !in_app_iff, !names_of_in, in_map_iff. split.
  - intros [(x & ty & I & _)|[(x & ty & I & _)|(x & ty & I & _)]]; exists (c, x); auto.
  - intros ((c' & x) & <- & I). cbn. destruct x as [[] | | |].
    + left. eexists _, _. split; [exact I|]. split; reflexivity.
    + left. eexists _, _. split; [exact I|]. split; reflexivity.
    + right; left. eexists _, _. split; [exact I|]. split; reflexivity.
    + now destruct (NS c').
    + right; right. eexists _, _. split; [exact I|]. split; reflexivity.
Qed.

Lemma listed_no_special c : ~ In (c, Special) es.
Proof.
  intros I. apply (in_map (fun x => (fst x, type_of (snd x)))) in I. rewrite <- L in I. cbn in I.
  apply in_map_iff in I. destruct I as ((c' & ty) & E & _). discriminate.
Qed.
End Listed.

Lemma Forall2_In {A B} (Q : A -> B -> Prop) l1 l2 : Forall2 Q l1 l2 ->
  (forall y, In y l2 -> exists x, In x l1 /\ Q x y) /\ (forall x, In x l1 -> exists y, In y l2 /\ Q x y).
Proof.
  induction 1 as [|x y l1 l2 Hxy _ [IH1 IH2]]; [split; intros ? []|]. split.
  - intros z [<- |I]; [exists x; split; [now left|exact Hxy]|]. destruct (IH1 z I) as (w & J & K). exists w. split; [now right|exact K].
  - intros z [<- |I]; [exists y; split; [now left|exact Hxy]|]. destruct (IH2 z I) as (w & J & K). exists w. split; [now right|exact K].
Qed.

Lemma Forall2_names {K} (name : K -> string) (Q : K -> string * artifact -> Prop) ks vs :
  (forall k v, Q k v -> fst v = name k) -> Forall2 Q ks vs -> map fst vs = map name ks.
Proof. intros H. induction 1 as [|k v ks vs E _ IH]; [reflexivity|]. cbn. now rewrite (H _ _ E), IH. Qed.

Section References.
Variable tree_id : list (string * item) -> string.
Variables blob_id plain_id : string -> string.
Variable fs : item.
Variable native : bool.
Variable r : root.
Variable repository : string.
Variable T : item.
Variable inv : state -> Prop.
Variable names_dir : string -> list string -> Prop.
Notation entries_of := (DirectoryEntriesOf tree_id fs r).
Notation source := (SourceTarget tree_id blob_id plain_id fs native r).
Notation stands := (stands_for tree_id blob_id plain_id fs native r repository).

Hypothesis T_proper : proper T.
Hypothesis D : forall st path ps, inv st -> names_dir path ps ->
  exists st' e, entries_of st path = (st', Some e) /\ inv st' /\
    match at_path T ps with Some (Directory es) => given tree_id native e es | _ => e = Pairs [] end.
Hypothesis S : forall st ms f es, inv st -> Forall plain ms -> plain f -> at_path T ms = Some (Directory es) ->
  exists st', inv st' /\
    match blob_at (alookup f es) with
    | Some b => exists a, source st repository (join_slash ms) f = (st', Some (f, a)) /\
                          forall x, alookup f es = Some x -> stands a x
    | None => source st repository (join_slash ms) f = (st', None)
    end.
Hypothesis NM : forall path ps, names_dir path ps -> Forall plain ps /\ normal_module_name path = join_slash ps.
Hypothesis ND : forall ps es f, Forall plain ps -> at_path T ps = Some (Directory es) -> plain f ->
  names_dir (join_slash (ps ++ [f])) (ps ++ [f]).

Lemma tree_ok k : forall st module name ps es, inv st -> names_dir (append module name) ps ->
  at_path T ps = Some (Directory es) -> height (Directory es) <= k ->
  exists st' a, TreeTarget tree_id blob_id plain_id fs native k r st repository module name = (st', Some (name, a)) /\
    inv st' /\ stands a (Directory es).
Proof.
  induction k as [|k IH]; intros st module name ps es I N A H; [cbn in H; lia|]. cbn [TreeTarget].
  destruct (D st _ _ I N) as (st1 & e & -> & I1 & G). rewrite A in G. destruct G as [L KT].
  destruct (AsKnownTree tree_id native e repository) as [a|] eqn:K.
  { destruct (KT _ _ K) as [EN ->]. eexists _, _. split; [reflexivity|]. split; [exact I1|]. now constructor. }
  destruct (NM _ _ N) as [PP ->]. destruct (T_proper _ _ A) as [NDE PL].
  fold (names_of e IsFileObject) (names_of e IsSymlinkObject) (names_of e IsTreeObject).
  set (keys := map (pair false) (names_of e IsFileObject) ++ map (pair false) (names_of e IsSymlinkObject)
               ++ map (pair true) (names_of e IsTreeObject)).
  set (child := fun st (x : bool * string) => if fst x
     then TreeTarget tree_id blob_id plain_id fs native k r st repository (join_slash ps) (snd x)
     else source st repository (join_slash ps) (snd x)).
  set (Q := fun (x : bool * string) (v : string * artifact) => fst v = snd x /\ forall y, In (snd x, y) es -> stands (snd v) y).
  assert (map snd keys = names_of e IsFileObject ++ names_of e IsSymlinkObject ++ names_of e IsTreeObject) as KN.
  { unfold keys. rewrite !map_app, !map_map. cbn [snd]. now rewrite !map_id. }
  assert (forall c x, In (c, x) es -> plain c) as PC.
  { intros c x IN. rewrite Forall_forall in PL. apply PL. now apply (in_map fst) in IN. }
  destruct (all_of_ok child inv Q keys) with (st := st1) as (st2 & vs & -> & I2 & F2); [|exact I1|].
  { intros st0 [b c] I0 IK. unfold child, Q. cbn [fst snd].
    assert (exists x ty, In (c, x) es /\ type_of x = Some ty /\ (if b then IsTreeObject ty else IsBlobObject ty) = true) as (x & ty & IX & TY & FT).
    { unfold keys in IK. rewrite !in_app_iff, !in_map_iff in IK.
      destruct IK as [(c' & E & IK)|[(c' & E & IK)|(c' & E & IK)]]; injection E as <- ->; apply (names_of_in e es L) in IK;
        destruct IK as (x & ty & J1 & J2 & J3); exists x, ty; split; try exact J1; split; try exact J2; destruct ty; (reflexivity || discriminate). }
    pose proof (In_alookup _ _ _ NDE IX) as LX.
    assert (forall y, In (c, y) es -> y = x) as UX.
    { intros y IY. rewrite (In_alookup _ _ _ NDE IY) in LX. congruence. }
    destruct b.
    - destruct x as [[] c0|c0| |es']; cbn in TY; try discriminate TY; injection TY as <-; try discriminate FT.
      assert (at_path T (ps ++ [c]) = Some (Directory es')) as A' by (rewrite at_path_app, A; cbn; now rewrite LX).
      assert (append (join_slash ps) c = join_slash (ps ++ [c])) as EA.
      { apply (append_join ps [c] PP); [|discriminate]. repeat constructor; apply (PC _ _ IX). }
      pose proof (ND ps es c PP A (PC _ _ IX)) as N'. rewrite <- EA in N'.
      pose proof (height_dir _ _ H) as HH. rewrite Forall_forall in HH. specialize (HH _ IX). cbn [snd] in HH.
      destruct (IH st0 (join_slash ps) c (ps ++ [c]) es' I0 N' A' HH) as (st' & a & -> & I' & ST).
      exists st', (c, a). split; [reflexivity|]. split; [exact I'|]. cbn [fst snd]. split; [reflexivity|].
      intros y IY. now rewrite (UX y IY).
    - destruct (S st0 ps c es I0 PP (PC _ _ IX) A) as (st' & I' & SP). rewrite LX in SP. cbn [blob_at] in SP.
      destruct (as_blob x) as [bb|] eqn:B.
      2:{ exfalso. destruct x as [[] c0|c0| |es']; cbn in TY, B; try discriminate. injection TY as <-. discriminate FT. }
      destruct SP as (a & -> & ST). exists st', (c, a). split; [reflexivity|]. split; [exact I'|]. cbn [fst snd]. split; [reflexivity|].
      intros y IY. rewrite (UX y IY). now apply ST. }
  eexists _, _. split; [reflexivity|]. split; [exact I2|].
  assert (map fst vs = map snd keys) as VN by (apply (Forall2_names snd Q); [intros ? ? [X _]; exact X|exact F2]).
  assert (NoDup (map fst vs)) as VD by (rewrite VN, KN; apply all_nodup with es; assumption).
  assert (forall c, In c (map fst vs) <-> In c (map fst es)) as VI.
  { intros c. rewrite VN, KN. apply all_in; [exact L|]. intros c'. exact (listed_no_special e es L c'). }
  destruct (emplace_lookup vs []) as [SO LO]; [|constructor|].
  { apply Forall_forall. intros c IC. apply VI in IC. rewrite Forall_forall in PL. now apply PL. }
  fold (emplace_all vs) in SO, LO. cbn [alookup] in LO.
  constructor.
  - apply sorted_NoDup. exact SO.
  - intros f. rewrite <- VI. split; intros J.
    + destruct (alookup f (emplace_all vs)) as [a|] eqn:AL; [|apply alookup_None in AL; now destruct AL].
      rewrite LO in AL. apply alookup_In in AL. now apply (in_map fst) in AL.
    + destruct (alookup f vs) as [a|] eqn:AL; [|apply alookup_None in AL; now destruct AL].
      rewrite <- LO in AL. apply alookup_In in AL. now apply (in_map fst) in AL.
  - intros f a x IA IX.
    assert (In (f, a) vs) as IV.
    { apply alookup_In. rewrite <- LO. apply In_alookup; [apply sorted_NoDup; exact SO|exact IA]. }
    destruct (proj1 (Forall2_In Q _ _ F2) _ IV) as ([b c] & _ & [E ST]). cbn in E, ST. subst c. now apply ST.
Qed.

Lemma tree_missing k st module name ps : inv st -> names_dir (append module name) ps ->
  (forall es, at_path T ps <> Some (Directory es)) ->
  exists st', TreeTarget tree_id blob_id plain_id fs native (Datatypes.S k) r st repository module name = (st', Some (name, TreeOf [])) /\ inv st'.
Proof.
  intros I N A. cbn [TreeTarget]. destruct (D st _ _ I N) as (st1 & e & -> & I1 & G).
  assert (e = Pairs []) as ->.
  { destruct (at_path T ps) as [[| | |es]|]; try exact G. now destruct (A es). }
  exists st1. split; [reflexivity|exact I1].
Qed.

Variable fnmatch : string -> string -> bool.

Lemma glob_ok st module ms pattern : inv st -> names_dir module ms -> module = join_slash ms ->
  exists st' l, GlobTarget tree_id blob_id plain_id fs native fnmatch r st repository module pattern = (st', Some l) /\ inv st' /\
    sorted_keys l /\
    (forall f a, In (f, a) l -> exists x, at_path T (ms ++ [f]) = Some x /\ is_some (as_blob x) = true /\
                                         fnmatch pattern f = true /\ stands a x) /\
    (forall f x, plain f -> at_path T (ms ++ [f]) = Some x -> is_some (as_blob x) = true -> fnmatch pattern f = true ->
       exists a, In (f, a) l).
Proof.
  intros I N EM. unfold GlobTarget. destruct (D st _ _ I N) as (st1 & e & -> & I1 & G).
  destruct (NM _ _ N) as [PP _].
  destruct (at_path T ms) as [x0|] eqn:A.
  2:{ rewrite G. exists st1, []. split; [reflexivity|]. split; [exact I1|]. split; [constructor|]. split; [intros ? ? []|].
      intros f x _ E. rewrite at_path_app, A in E. discriminate. }
  destruct x0 as [x c|c| |es].
  1-3: rewrite G; exists st1, []; split; [reflexivity|]; split; [exact I1|]; split; [constructor|]; split; [intros ? ? []|];
       intros f y _ E; rewrite at_path_app, A in E; discriminate.
  destruct G as [L _]. destruct (T_proper _ _ A) as [NDE PL].
  fold (names_of e IsFileObject) (names_of e IsSymlinkObject). rewrite <- filter_app. rewrite EM.
  set (keys := filter (fnmatch pattern) (names_of e IsFileObject ++ names_of e IsSymlinkObject)).
  set (Q := fun (c : string) (v : string * artifact) => fst v = c /\ forall y, alookup c es = Some y -> stands (snd v) y).
  assert (forall c, In c keys <-> exists x b, In (c, x) es /\ as_blob x = Some b /\ fnmatch pattern c = true) as KI.
  { intros c. unfold keys. rewrite filter_In, (blobs_in e es L). split.
    - intros [(x & b & J1 & J2) F]. eauto 6.
    - intros (x & b & J1 & J2 & F). eauto 6. }
  assert (NoDup keys) as KD.
  { apply NoDup_filter. apply blobs_nodup with es; assumption. }
  destruct (all_of_ok (fun st x => source st repository (join_slash ms) x) inv Q keys) with (st := st1) as (st2 & vs & -> & I2 & F2); [|exact I1|].
  { intros st0 c I0 IK. apply KI in IK. destruct IK as (x & b & IX & B & _).
    assert (plain c) as PC by (rewrite Forall_forall in PL; apply PL; now apply (in_map fst) in IX).
    destruct (S st0 ms c es I0 PP PC A) as (st' & I' & SP). rewrite (In_alookup _ _ _ NDE IX) in SP. cbn [blob_at] in SP.
    rewrite B in SP. destruct SP as (a & -> & ST). exists st', (c, a). split; [reflexivity|]. split; [exact I'|].
    split; [reflexivity|]. cbn. rewrite (In_alookup _ _ _ NDE IX). exact ST. }
  assert (map fst vs = keys) as VN.
  { rewrite <- (map_id keys). apply (Forall2_names (fun x => x) Q); [intros ? ? [X _]; exact X|exact F2]. }
  destruct (insert_lookup vs []) as [SO LO]; [rewrite VN; exact KD|constructor|]. cbn [alookup] in LO.
  eexists _, _. split; [reflexivity|]. split; [exact I2|]. split; [exact SO|].
  set (l := fold_left (fun acc e => ainsert (fst e) (snd e) acc) vs []) in *.
  assert (forall f, alookup f l = alookup f vs) as LL by (intros f; rewrite LO; now destruct (alookup f vs)).
  split.
  - intros f a IA. assert (In (f, a) vs) as IV.
    { apply alookup_In. rewrite <- LL. apply In_alookup; [apply sorted_NoDup; exact SO|exact IA]. }
    destruct (proj1 (Forall2_In Q _ _ F2) _ IV) as (c & IC & [E ST]). cbn in E, ST. subst c. apply KI in IC.
    destruct IC as (x & b & IX & B & FM). exists x. rewrite at_path_app, A. cbn. rewrite (In_alookup _ _ _ NDE IX).
    split; [reflexivity|]. split; [now rewrite B|]. split; [exact FM|]. apply ST. now apply In_alookup.
  - intros f x PF E B FM. rewrite at_path_app, A in E. cbn in E. destruct (alookup f es) as [y|] eqn:LY; [|discriminate].
    injection E as ->. apply alookup_In in LY.
    assert (In f keys) as IK. { apply KI. destruct (as_blob x) as [b|] eqn:BB; [eauto 6|discriminate B]. }
    rewrite <- VN in IK. destruct (alookup f vs) as [a|] eqn:AL; [|apply alookup_None in AL; now destruct AL].
    exists a. apply alookup_In. now rewrite LL.
Qed.
End References.
