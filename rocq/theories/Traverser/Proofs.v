(** The graph for what analysed targets recorded, and builds of it. *)
From Coq Require Import String Ascii List Bool Arith NArith ZArith Lia.
From Verif Require Import Dag.Graph Dag.GraphInv Dag.GraphAdd Dag.GraphProps.
From Verif Require Import Dag.Traverse Dag.TraverseInv Dag.TraverseProps.
From Verif Require Import Executor.Local Executor.Process Executor.Build Executor.BuildSpec Executor.BuildProofs Executor.BuildProps.
From Verif Require Import Common.Strs LinkedMap.Model Expr.Json Expr.Model Describe.Model.
From Verif Require Import Analysis.Stage Analysis.Model Analysis.Spec Analysis.HonestSpec Analysis.ActionShape.
From Verif Require Import Traverser.Model Traverser.Spec Traverser.GraphFacts Traverser.Values.
Import ListNotations.
Local Open Scope string_scope.
Local Open Scope list_scope.
Local Open Scope nat_scope.

Lemma number_snd l : forall k, map snd (number k l) = seq k (length l).
Proof. induction l as [|o l IH]; intros k; cbn; [reflexivity|]. f_equal. apply IH. Qed.

(** ** Artifacts and nodes *)

Lemma created_known u t data a : create_known u t data = Some a -> exists d ot, a = AKnown d ot None.
Proof.
  unfold create_known. destruct (extract_string data "id"); [|discriminate]. destruct (extract_size u data "size"); [|discriminate].
  destruct (extract_string data "file_type") as [[|c [|]]|]; try discriminate. destruct (create_digest _ _ _ _); [|discriminate].
  intros E. injection E as <-. eauto.
Qed.

Section Build.
Variable W : world.
Variable code : string -> nat.
Variable leaf : json -> nat.
Variable scale : num -> Z.
Hypothesis CI : forall a b, code a = code b -> a = b.
Variable g : gathered.
Variable js : list json.
Notation L := (recipes_of g).
Notation aid_of := (aid_of code leaf).
Notation desc_of := (desc_of W code leaf).

Inductive obtainable : json -> Prop :=
| ob_source j : source_like j -> obtainable j
| ob_made r o : In r L -> In o (routs r) -> (forall e, In e (rinputs r) -> obtainable (snd e)) -> obtainable (out_artifact W r o).

Hypothesis UN : forall r r', In r L -> In r' L -> rid W r = rid W r' -> r = r'.
Hypothesis ND : NoDup L.
Hypothesis SH : forall x, In (RAction x) L -> shaped x.
Hypothesis BI : forall r e, In r L -> In e (rinputs r) -> obtainable (snd e).
Hypothesis BJ : forall j, In j js -> obtainable j.

Lemma aid_out r o : aid_of (out_artifact W r o) =
  match r with
  | RAction x => AOut (code (ra_id x)) (code o)
  | RTree c => Graph.ATree (code (t_id W c))
  | ROverlay o' => AOverlay (code (o_id W o'))
  end.
Proof. destruct r; reflexivity. Qed.
Lemma source_leaf j : source_like j -> aid_of j = ALeaf (leaf j).
Proof.
  intros (a & -> & S). destruct a as [p r|d t r| | |]; try contradiction; [reflexivity|].
  unfold Model.aid_of. change (art_FromJson (fun _ : num => 0%N) PlainSHA256 (art_ToJson (AKnown d t r))) with
    (create_known (fun _ : num => 0%N) PlainSHA256 (JObj [("file_type", JStr (String (ToChar t) "")); ("id", JStr (d_hash d)); ("size", JInt (Z.of_N (d_size d)))])).
  destruct (create_known _ _ _) as [a|] eqn:E; [|reflexivity].
  apply created_known in E as (d' & t' & ->). reflexivity.
Qed.

Lemma outs_desc r : outputs (desc_of r) = map (fun o => aid_of (out_artifact W r o)) (routs r).
Proof.
  unfold outputs, out_files, out_dirs. destruct r as [x|c|o]; cbn [d_kind Model.desc_of rkind d_files d_dirs d_id rfiles rdirs rid]; [|reflexivity|reflexivity].
  rewrite map_app, !map_map. cbn [snd]. cbn [routs]. rewrite map_app. reflexivity.
Qed.
Lemma in_outs r x : In x (outputs (desc_of r)) <-> exists o, In o (routs r) /\ x = aid_of (out_artifact W r o).
Proof. rewrite outs_desc, in_map_iff. split; intros (o & A & B); exists o; auto. Qed.

Lemma out_inj r r' o o' : In r L -> In r' L -> In o (routs r) -> In o' (routs r') ->
  aid_of (out_artifact W r o) = aid_of (out_artifact W r' o') -> r = r' /\ o = o'.
Proof.
  intros J J' Jo Jo'. rewrite !aid_out. intros E. assert (RI : rid W r = rid W r').
  { destruct r, r'; cbn [rid]; try discriminate E; injection E; intros; now apply CI. }
  pose proof (UN r r' J J' RI) as <-. split; [reflexivity|].
  destruct r as [x|c|p]; [injection E; intros; now apply CI| |]; cbn in Jo, Jo'; destruct Jo as [<-|[]], Jo' as [<-|[]]; reflexivity.
Qed.
Lemma source_not_out j r o : source_like j -> aid_of j <> aid_of (out_artifact W r o).
Proof. intros S. rewrite (source_leaf j S), aid_out. destruct r; discriminate. Qed.

Lemma obtainable_out j r : obtainable j -> In r L -> In (aid_of j) (outputs (desc_of r)) ->
  exists o, In o (routs r) /\ j = out_artifact W r o.
Proof.
  intros O J H. apply in_outs in H as (o & Jo & E). destruct O as [j S|r' o' J' Jo' _].
  - destruct (source_not_out j r o S E).
  - destruct (out_inj r' r o' o J' J Jo' Jo E) as [-> ->]. eauto.
Qed.

Lemma nodup_ids : NoDup (map d_id (map desc_of L)).
Proof.
  rewrite map_map. assert (G : forall l, (forall r, In r l -> In r L) -> NoDup l -> NoDup (map (fun r => d_id (desc_of r)) l)).
  { induction l as [|r l IH]; intros HI N; cbn [map]; constructor.
    - intros J. apply in_map_iff in J as (r' & E & J). cbn in E. apply CI in E. inversion N as [|? ? N1 N2]; subst. apply N1.
      rewrite <- (UN r' r); auto. apply HI; now right. apply HI; now left.
    - inversion N; subst. apply IH; auto. intros; apply HI; now right. }
  apply G; auto.
Qed.

Lemma nodup_outs : NoDup (flat_map outputs (map desc_of L)).
Proof.
  assert (G : forall l, (forall r, In r l -> In r L) -> NoDup l -> NoDup (flat_map outputs (map desc_of l))).
  { induction l as [|r l IH]; intros HI N; cbn [map flat_map]; [constructor|]. inversion N as [|? ? N1 N2]; subst.
    apply nodup_app. split; [|split].
    - rewrite outs_desc. assert (NR : NoDup (routs r)).
      { destruct r as [x|c|o]; cbn; [|constructor; [intros []|constructor]..]. apply SH. apply HI. now left. }
      assert (Gr : forall l0, incl l0 (routs r) -> NoDup l0 -> NoDup (map (fun o => aid_of (out_artifact W r o)) l0)).
      { induction l0 as [|o l0 IH0]; intros IC NL; cbn [map]; constructor.
        - intros K. apply in_map_iff in K as (o' & E & K). inversion NL as [|? ? M1 M2]; subst. apply M1.
          destruct (out_inj r r o' o) as [_ <-]; auto; try (apply HI; now left). apply IC; now right. apply IC; now left.
        - inversion NL; subst. apply IH0; auto. intros y Y. apply IC. now right. }
      apply Gr; auto. intros y Y; exact Y.
    - apply IH; auto. intros; apply HI; now right.
    - intros x K J. apply in_flat_map in K as (d & Jd & K). apply in_map_iff in Jd as (r' & <- & Jr).
      apply in_outs in J as (o & Jo & ->). apply in_outs in K as (o' & Jo' & E).
      destruct (out_inj r r' o o') as [-> _]; auto; try (apply HI; (now left) || (now right)). }
  apply G; auto.
Qed.

Lemma all_runnable d : In d (map desc_of L) -> runnable d /\ outputs d <> [].
Proof.
  intros J. apply in_map_iff in J as (r & <- & J). split.
  - unfold runnable. destruct r as [x|c|o]; cbn [d_kind Model.desc_of rkind]; try discriminate.
    destruct (SH x J) as (C & _). destruct (ra_command x); [contradiction|discriminate].
  - rewrite outs_desc. destruct r as [x|c|o]; try discriminate. destruct (SH x J) as (_ & C & _). cbn [routs].
    destruct (ra_outs x ++ ra_out_dirs x); [contradiction|discriminate].
Qed.

Lemma obtainable_grounded : forall j, obtainable j -> forall r, In r L -> In (aid_of j) (outputs (desc_of r)) ->
  grounded (map desc_of L) (desc_of r).
Proof.
  fix go 2. intros j O. destruct O as [j S|r' o' J' Jo' HI]; intros r J H.
  - exfalso. apply in_outs in H as (o & _ & E). exact (source_not_out j r o S E).
  - apply in_outs in H as (o & Jo & E). destruct (out_inj r' r o' o J' J Jo' Jo E) as [<- <-].
    constructor. intros d x Jd Jx Ox. apply in_map_iff in Jd as (r2 & <- & J2).
    cbn [d_inputs Model.desc_of] in Jx. rewrite map_map in Jx. apply in_map_iff in Jx as (e & <- & Je).
    exact (go _ (HI e Je) r2 J2 Ox).
Qed.
Lemma recipes_acyclic : acyclic_descs (map desc_of L).
Proof.
  apply grounded_acyclic; [exact nodup_ids|]. intros d J. apply in_map_iff in J as (r & <- & J).
  constructor. intros d' x Jd Jx Ox. apply in_map_iff in Jd as (r2 & <- & J2).
  cbn [d_inputs Model.desc_of] in Jx. rewrite map_map in Jx. apply in_map_iff in Jx as (e & <- & Je).
  exact (obtainable_grounded _ (BI r e J Je) r2 J2 Ox).
Qed.

(** ** The graph *)

Lemma fold_artifacts l s : fold_left (fun s j => fst (add_artifact s (aid_of j))) l s =
  fold_left (fun s x => fst (add_artifact s x)) (map aid_of l) s.
Proof. revert s. induction l as [|j l IH]; intros s; cbn; auto. Qed.

Lemma graph_built : exists s, BuildGraph W code leaf g js = Some s /\ @Full (map aid_of js) s (map desc_of L) /\
  (forall j, In j js -> a_known s (aid_of j)).
Proof.
  unfold BuildGraph, add_artifacts. rewrite fold_artifacts.
  pose proof (full_artifacts (map aid_of js) _ _ _ full_empty) as F0.
  destruct (ext_artifacts (map aid_of js) _ _ empty_R) as (_ & _ & KN). cbn [app] in F0.
  set (s0 := fold_left _ (map aid_of js) empty_graph) in *.
  assert (SP : map desc_of L = map desc_of (command_recipes g) ++ map desc_of (tree_recipes g)) by (unfold recipes_of; apply map_app).
  assert (AR : forall d, In d (map desc_of (command_recipes g)) \/ In d (map desc_of (tree_recipes g)) -> runnable d /\ outputs d <> []).
  { intros d H. apply all_runnable. rewrite SP. now apply in_or_app. }
  pose proof nodup_outs as NO. rewrite SP in NO.
  destruct (add s0 (map desc_of (command_recipes g))) as [s1 ok1] eqn:E1.
  destruct (add_full _ _ _ _ _ _ F0 E1) as [F1 I1].
  assert (ok1 = true) as ->.
  { apply I1. split; [intros d J; apply AR; now left|]. cbn [app]. rewrite flat_map_app in NO. now apply nodup_app in NO. }
  specialize (F1 eq_refl). cbn [app] in F1.
  destruct (add s1 (map desc_of (tree_recipes g))) as [s2 ok2] eqn:E2.
  destruct (add_full _ _ _ _ _ _ F1 E2) as [F2 I2].
  assert (ok2 = true) as ->.
  { apply I2. split; [intros d J; apply AR; now right|]. exact NO. }
  exists s2. split; [reflexivity|]. split; [rewrite SP; exact (F2 eq_refl)|].
  intros j J. pose proof (add_ext _ _ _ _ _ (f_R _ _ F0) E1) as X1. pose proof (add_ext _ _ _ _ _ (f_R _ _ F1) E2) as X2.
  destruct (KN (aid_of j)) as [n Hn]; [now apply in_map|]. exists n. apply (proj1 X2), (proj1 X1), Hn.
Qed.

Section WithGraph.
Variable s : gstate.
Variable F : @Full (map aid_of js) s (map desc_of L).
Variable KJ : forall j, In j js -> a_known s (aid_of j).
Notation G := (to_graph s).
Notation acts := (node_act W code leaf scale g s).

Lemma find_recipe r : In r L -> find (fun r' => Nat.eqb (code (rid W r')) (code (rid W r))) L = Some r.
Proof.
  intros J. destruct (find (fun r' => Nat.eqb (code (rid W r')) (code (rid W r))) L) as [r'|] eqn:E.
  - apply find_some in E as [J' E]. apply Nat.eqb_eq, CI in E. f_equal. now apply UN.
  - exfalso. pose proof (find_none _ _ E r J) as Q. cbn in Q. rewrite Nat.eqb_refl in Q. discriminate.
Qed.
Lemma node_act_of r : In r L -> acts (cidx s (d_id (desc_of r))) = act_of W code leaf scale s r.
Proof.
  intros J. destruct (full_cidx F (desc_of r) (in_map _ _ _ J)) as (n & N & E). unfold node_act. rewrite N, E.
  cbn [d_id Model.desc_of]. now rewrite (find_recipe r J).
Qed.
Lemma node_cases c : (exists r, In r L /\ c = cidx s (d_id (desc_of r)) /\ acts c = act_of W code leaf scale s r) \/
  (nth_error (Graph.acts s) c = None /\ acts c = idle).
Proof.
  destruct (nth_error (Graph.acts s) c) as [n|] eqn:N.
  - left. destruct (full_act F c n N) as (d & J & E & Ec). apply in_map_iff in J as (r & <- & J). exists r.
    split; [exact J|]. split; [exact Ec|]. rewrite Ec. now apply node_act_of.
  - right. split; [reflexivity|]. unfold node_act. now rewrite N.
Qed.

Lemma inputs_act r : n_inputs (act_of W code leaf scale s r) = map (fun e => (fst e, aidx s (aid_of (snd e)))) (rinputs r).
Proof. destruct r; reflexivity. Qed.
Lemma outs_act r : map snd (n_files (act_of W code leaf scale s r) ++ n_dirs (act_of W code leaf scale s r)) =
  map (aidx s) (outputs (desc_of r)).
Proof.
  rewrite outs_desc, map_map. destruct r as [x|c|o]; [|reflexivity|reflexivity].
  cbn [act_of n_files n_dirs routs]. rewrite !map_app, !map_map. reflexivity.
Qed.

Lemma graph_linked : linked G acts.
Proof.
  intros c. destruct (node_cases c) as [(r & J & -> & ->)|(N & ->)].
  - destruct (full_node F (desc_of r) nodup_ids (in_map _ _ _ J)) as [-> ->]. rewrite inputs_act, outs_act. split; [|reflexivity].
    cbn [d_inputs Model.desc_of]. rewrite !map_map. reflexivity.
  - destruct (full_none c N) as [-> ->]. split; reflexivity.
Qed.
Lemma graph_shape c : tree_shape (acts c).
Proof.
  destruct (node_cases c) as [(r & _ & _ & ->)|(_ & ->)]; [|exact I].
  destruct r as [x|c0|o]; [exact I| |]; cbn; eauto.
Qed.
Lemma graph_wf : wf G.
Proof. exact (to_graph_wf _ _ (f_R _ _ F)). Qed.
Lemma graph_acyclic : acyclic G.
Proof. exact (full_acyclic F recipes_acyclic). Qed.
Lemma graph_knows j : a_known s (aid_of j) -> Traverse.known G (aidx s (aid_of j)) = true.
Proof. intros K. cbn. apply Nat.ltb_lt. exact (aidx_bound _ _ _ (f_R _ _ F) K). Qed.

(** ** What artifacts come out as *)

Variable X : context.
Variable A : api.
Variable ts : list (key * analysed).
Hypothesis TS : forall r, recorded ts r <-> In r L.
Variable src : json -> option object_info.
Variable source : nat -> option object_info.
Hypothesis SRC : forall j, source_like j -> a_known s (aid_of j) -> source (aidx s (aid_of j)) = src j.
Notation comes := (comes_out X A W scale ts src).
Notation val := (value X A G acts source).

Lemma comes_ind (P : json -> object_info -> Prop) :
  (forall j i, source_like j -> src j = Some i -> P j i) ->
  (forall r n o ins ws i, recorded ts r -> nth_error (routs r) n = Some o ->
     Forall2 (fun (x : string * json) (y : string * object_info) => fst x = fst y /\ P (snd x) (snd y)) (rinputs r) ins ->
     Process X A (standalone scale r) ins = (true, ws) -> In (n, i) ws -> P (out_artifact W r o) i) ->
  forall j i, comes j i -> P j i.
Proof.
  intros HS HB. fix go 3. intros j i V. destruct V as [j i S E|r n o ins ws i J N F0 Q I0].
  - exact (HS j i S E).
  - refine (HB r n o ins ws i J N _ Q I0).
    clear Q I0. revert F0. generalize (rinputs r) ins. clear -go. fix walk 3.
    intros l ins F0. destruct F0 as [|x y l ins E F0]; constructor; [|exact (walk _ _ F0)].
    destruct E as [E1 E]. split; [exact E1|]. exact (go _ _ E).
Qed.

Definition slot (r : recipe) (n : nat) : nat := aidx s (aid_of (out_artifact W r (nth n (routs r) ""))).

Lemma number_map r f l : forall pre, routs r = pre ++ l ++ f ->
  renum (slot r) (number (length pre) l) = map (fun o => (o, aidx s (aid_of (out_artifact W r o)))) l.
Proof.
  induction l as [|o l IH]; intros pre E; cbn [number renum map]; [reflexivity|]. f_equal.
  - cbn [fst snd]. unfold slot. f_equal. f_equal. rewrite E, app_nth2, Nat.sub_diag by lia. reflexivity.
  - specialize (IH (pre ++ [o])). rewrite app_length, Nat.add_1_r in IH. apply IH. rewrite E, <- app_assoc. reflexivity.
Qed.

Lemma standalone_renum r ins : Process X A (act_of W code leaf scale s r) ins =
  (fst (Process X A (standalone scale r) ins), map (fun w => (slot r (fst w), snd w)) (snd (Process X A (standalone scale r) ins))).
Proof.
  destruct r as [x|c|o]; cbn [act_of standalone].
  - pose proof (number_map (RAction x) (ra_out_dirs x) (ra_outs x) [] eq_refl) as E1.
    pose proof (number_map (RAction x) [] (ra_out_dirs x) (ra_outs x)) as E2. rewrite app_nil_r in E2. specialize (E2 eq_refl).
    cbn [length out_artifact] in E1, E2.
    change (fun o => (o, aidx s (AOut (code (ra_id x)) (code o)))) with (fun o => (o, aidx s (aid_of (art_ToJson (AAction (ra_id x) o))))).
    rewrite <- E1, <- E2. apply process_renum.
  - exact (process_renum X A (slot (RTree c)) TreeAction [] (rnodes code leaf s c) [] [("", 0)] [] "" [] [] 0%Z false false ins).
  - exact (process_renum X A (slot (ROverlay o)) (Overlay (snd o)) [] (rnodes code leaf s (as_inputs 0 (fst o))) [] [("", 0)] [] "" [] [] 0%Z false false ins).
Qed.
Lemma standalone_outs r ins ws : Process X A (standalone scale r) ins = (true, ws) -> map fst ws = seq 0 (length (routs r)).
Proof.
  intros P. apply process_outs in P.
  - rewrite P. destruct r as [x|c|o]; [|reflexivity|reflexivity]. cbn [standalone n_files n_dirs routs].
    rewrite map_app, !number_snd, app_length, seq_app. reflexivity.
  - destruct r as [x|c|o]; cbn; eauto.
Qed.

Lemma known_in r e : In r L -> In e (rinputs r) -> a_known s (aid_of (snd e)).
Proof.
  intros J Je. destruct (f_known _ _ F (desc_of r) (in_map _ _ _ J)) as (_ & _ & K).
  apply (K (code (fst e), aid_of (snd e))). cbn [d_inputs Model.desc_of].
  exact (in_map (fun e => (code (fst e), aid_of (snd e))) _ _ Je).
Qed.
Lemma known_out r o : In r L -> In o (routs r) -> a_known s (aid_of (out_artifact W r o)).
Proof. intros J Jo. apply (f_known _ _ F (desc_of r) (in_map _ _ _ J)). apply in_outs. eauto. Qed.
Lemma builder_out r o : In r L -> In o (routs r) ->
  builder G (aidx s (aid_of (out_artifact W r o))) = Some (cidx s (d_id (desc_of r))).
Proof.
  intros J Jo. apply (full_builder F); [now apply known_out|]. exists (desc_of r). split; [now apply in_map|].
  split; [apply in_outs; eauto|reflexivity].
Qed.

Lemma val_comes : forall a i, val a i -> forall j, obtainable j -> a_known s (aid_of j) -> a = aidx s (aid_of j) -> comes j i.
Proof.
  apply (value_ind' X A G acts source (fun a i => forall j, obtainable j -> a_known s (aid_of j) -> a = aidx s (aid_of j) -> comes j i)).
  - intros a i B S j O K ->. destruct O as [j SL|r o J Jo _].
    + apply co_source; [exact SL|]. now rewrite <- SRC.
    + rewrite (builder_out r o J Jo) in B. discriminate.
  - intros a i c ins ws B FV IH P H j O K ->.
    apply (full_builder F _ _ K) in B as (d & Jd & Ho & ->). apply in_map_iff in Jd as (r & <- & J).
    destruct (obtainable_out j r O J Ho) as (o & Jo & ->). clear Ho O.
    rewrite (node_act_of r J) in *. rewrite standalone_renum in P.
    destruct (Process X A (standalone scale r) ins) as [ok ws0] eqn:P0. cbn [fst snd] in P. injection P as -> <-.
    apply in_map_iff in H as ([n i0] & E & H). cbn [fst snd] in E. injection E as En ->.
    assert (Jn : n < length (routs r)).
    { assert (In n (map fst ws0)) as Q by (apply in_map_iff; exists (n, i); auto).
      rewrite (standalone_outs r ins ws0 P0) in Q. apply in_seq in Q. lia. }
    assert (nth n (routs r) "" = o) as EQ.
    { unfold slot in En. apply (aidx_inj _ _ _ _ (f_R _ _ F)) in En; [|apply known_out; auto; now apply nth_In|exact K].
      symmetry in En. destruct (out_inj r r o (nth n (routs r) "") J J Jo) as [_ Q]; auto. now apply nth_In. }
    assert (NE : nth_error (routs r) n = Some o) by (rewrite <- EQ; now apply nth_error_nth').
    apply (co_made X A W scale ts src r n o ins ws0 i); auto; [now apply TS|].
    rewrite inputs_act in IH, FV. clear P0 H. assert (HI : forall e, In e (rinputs r) -> In e (rinputs r)) by auto.
    revert HI ins IH FV. generalize (rinputs r) at 1 3 4 5 as l. induction l as [|e l IHl]; intros HI ins IH FV.
    + inversion IH. constructor.
    + cbn [map] in IH, FV. inversion IH as [|? y ? ins' H1 H2]; subst. inversion FV as [|? ? ? ? [H3 _] H4]; subst. constructor.
      * split; [exact H3|]. apply H1; [apply (BI r)|apply (known_in r)|]; auto; apply HI; now left.
      * apply IHl; auto. intros e' Je. apply HI. now right.
Qed.

Lemma comes_val : forall j i, comes j i -> a_known s (aid_of j) -> val (aidx s (aid_of j)) i.
Proof.
  apply (comes_ind (fun j i => a_known s (aid_of j) -> val (aidx s (aid_of j)) i)).
  - intros j i S E K. apply v_source; [|now rewrite SRC].
    destruct (builder G (aidx s (aid_of j))) as [c|] eqn:B; [|reflexivity]. exfalso.
    apply (full_builder F _ _ K) in B as (d & Jd & Ho & _). apply in_map_iff in Jd as (r & <- & J).
    apply in_outs in Ho as (o & _ & Q). exact (source_not_out j r o S Q).
  - intros r n o ins ws i RR NE IH P H K. apply TS in RR. pose proof (nth_error_In _ _ NE) as Jo.
    apply (v_built X A G acts source _ i (cidx s (d_id (desc_of r))) ins (map (fun w => (slot r (fst w), snd w)) ws)).
    + now apply builder_out.
    + rewrite (node_act_of r RR), inputs_act.
      assert (HI : forall e, In e (rinputs r) -> In e (rinputs r)) by auto.
      clear P. revert HI ins IH. generalize (rinputs r) at 1 3 4 as l. induction l as [|e l IHl]; intros HI ins IH.
      * inversion IH. constructor.
      * inversion IH as [|? y ? ins' [H1 H2] H3]; subst. cbn [map]. constructor.
        -- split; [exact H1|]. apply H2. apply (known_in r); auto. apply HI. now left.
        -- apply IHl; auto. intros e' Je. apply HI. now right.
    + rewrite (node_act_of r RR), standalone_renum, P. reflexivity.
    + apply in_map_iff. exists (n, i). split; [|exact H]. cbn [fst snd]. f_equal. unfold slot. f_equal. f_equal. f_equal.
      erewrite nth_error_nth; eauto.
Qed.
End WithGraph.
End Build.
