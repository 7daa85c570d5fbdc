(** Proofs for C116 and C117. *)
From Coq Require Import String List Bool Arith Lia.
From Verif Require Import Common.Strs GitTree.Model Storage.Model Storage.Spec Storage.Inv Storage.Run Storage.System Storage.Facts.
From Verif Require Import Expr.Json Expr.JsonSpec Expr.Model Expr.HashSpec Expr.OpsSpec Expr.DumpProofs Expr.CallProofs.
From Verif Require Import Tcache.Model Tcache.Provenance.
Import ListNotations.
Local Open Scope string_scope.
Local Open Scope list_scope.
Local Infix "^^" := String.append (at level 60, right associativity).

(** *** Keys *)
Section Keys.
Variable ndump : num -> string.
Variable H : string -> string.
Hypothesis NT : number_text ndump.

Lemma json_same e : json_value e = true -> ToJson ndump H SerializeAll e = ToJson ndump H NullForNonJson e.
Proof.
  induction e using expr_ind'; intros J; try discriminate; try reflexivity.
  - cbn in *. f_equal. induction l as [|x l IH]; [reflexivity|]. cbn in *. apply andb_prop in J as [J1 J2]. inversion H0; subst. f_equal; auto.
  - cbn in *. f_equal. induction m as [|[k x] l IH]; [reflexivity|]. cbn in *. apply andb_prop in J as [J1 J2]. inversion H0; subst. f_equal; [f_equal|]; auto.
Qed.
Lemma config_text_inj a b : json_value a = true -> json_value b = true -> finite ndump H a -> finite ndump H b ->
  Expr.Model.ToString ndump H a = Expr.Model.ToString ndump H b -> a = b.
Proof.
  intros Ja Jb Fa Fb E. unfold Expr.Model.ToString in E. rewrite !json_same in E by assumption.
  apply (json_value_inj ndump H); auto. apply (dump_injective ndump NT); auto using json_value_ok.
Qed.
Lemma key_text_inj r1 m1 t1 c1 r2 m2 t2 c2 : json_value c1 = true -> json_value c2 = true -> finite ndump H c1 -> finite ndump H c2 ->
  key_text ndump H r1 m1 t1 c1 = key_text ndump H r2 m2 t2 c2 -> r1 = r2 /\ m1 = m2 /\ t1 = t2 /\ c1 = c2.
Proof.
  intros J1 J2 F1 F2 E. unfold key_text in E. do 5 (apply app_str_inv_head in E).
  apply quote_inj in E as [E1 E]. do 4 (apply app_str_inv_head in E). do 1 (apply app_str_inv_head in E).
  apply quote_inj in E as [E2 E]. do 5 (apply app_str_inv_head in E).
  apply quote_inj in E as [E3 _].
  split; [exact E2|]. apply (dump_injective ndump NT) in E3; [|cbn; auto|cbn; auto]. injection E3 as -> ->.
  split; [reflexivity|]. split; [reflexivity|]. now apply config_text_inj.
Qed.
End Keys.

(** *** The writer *)
Section Writer.
Variable C : config.
Variable n : nat.
Variable targets : to_write.
Hypothesis S0 : sane C.

Definition ready (g : gen) (k : id) : Prop :=
  exists b implied refs, find_entry targets k = Some (Some b) /\ cfg_parse_target C b = Some (implied, refs) /\
    refs_avail g refs /\ forall j, In j implied -> j = k \/ present g STarget j.
Definition holds_at (g : gen) (k : id) (p : progress) : Prop :=
  match p with
  | Written => present g STarget k
  | Fetched => ready g k
  | _ => True
  end.
Definition winv (s : writing) : Prop :=
  w_sys s = reached C n (w_done s) /\ history C n (w_done s) /\
  forall k, holds_at (gen_at (disk (w_sys s)) 0) k (w_at s k).

Lemma ready_gext a g g' k : gext a g g' -> ready g k -> ready g' k.
Proof.
  intros X (b & i & r & F & P & RA & IM). exists b, i, r. split; [exact F|]. split; [exact P|]. split.
  - intros t d Hd. specialize (RA t d Hd). unfold avail in *. destruct (IsTreeObject t); [eapply gext_avail_tree|eapply gext_avail_blob]; eauto.
  - intros j Hj. destruct (IM j Hj) as [E|E]; [now left|right]. eapply gext_present; eauto.
Qed.
Lemma holds_gext a g g' k p : gext a g g' -> holds_at g k p -> holds_at g' k p.
Proof. intros X. destruct p; cbn; auto; [eapply ready_gext|eapply gext_present]; eauto. Qed.
Lemma set_at_cases (P : id -> progress -> Prop) f k p : P k p -> (forall k', P k' (f k')) -> forall k', P k' (set_at f k p k').
Proof. intros A B k'. unfold set_at. destruct (String.eqb_spec k' k) as [->|]; auto. Qed.

(** The storage's part of a step. *)
Definition quiet (acts : list action) : Prop :=
  no_collision (cfg_hash C) (log (disk (reached C n acts))) /\ length (log (disk (reached C n acts))) + 2 <= cfg_fuel C.
Lemma quiet_app a b : quiet (a ++ b) -> quiet a.
Proof. intros [A B]. exact (limits_suffix C _ _ (reached_log C n a b) (conj A B)). Qed.
Lemma history_snoc acts a : history C n acts -> no_io_error a ->
  match a with Start o => contract C (disk (reached C n acts)) o | _ => True end -> quiet (acts ++ [a]) -> history C n (acts ++ [a]).
Proof.
  intros (N0 & IO & CT & _) I K Q. split; [exact N0|]. split.
  - intros x Hx. apply in_app_or in Hx as [Hx|[<-|[]]]; auto.
  - split; [|exact Q]. clear Q IO. revert CT K. unfold reached, perform_all. generalize (fresh n). induction acts as [|y acts IH]; intros Σ CT K; cbn in *.
    + split; [exact K|exact Logic.I].
    + destruct CT as [C1 C2]. split; [exact C1|]. apply IH; auto.
Qed.

Lemma winv_action s a at' : winv s -> is_collect a = false -> no_io_error a ->
  match a with Start o => contract C (disk (w_sys s)) o | _ => True end ->
  quiet (w_done s ++ [a]) ->
  (forall k, holds_at (gen_at (disk (w_sys s)) 0) k (at' k)) ->
  winv (mkWriting (perform C (w_sys s) a) (w_done s ++ [a]) at').
Proof.
  intros (E & Hi & _) NC IO K Q HA. rewrite E in K. assert (H2 := history_snoc _ _ Hi IO K Q).
  split; [|split]; cbn [w_sys w_done w_at].
  - rewrite reached_app, <- E. reflexivity.
  - exact H2.
  - assert (T := history_step C n S0 _ _ H2). rewrite <- E in T.
    assert (X : ext (disk (w_sys s)) (disk (perform C (w_sys s) a))) by (destruct a; [exact T|exact T|discriminate NC]).
    destruct X as (_ & _ & X & _). intros k. eapply holds_gext; [exact (X 0)|apply HA].
Qed.
Lemma winv_become s k p : winv s -> holds_at (gen_at (disk (w_sys s)) 0) k p -> winv (become s k p).
Proof.
  intros (E & Hi & HA) P. split; [exact E|]. split; [exact Hi|]. cbn [w_sys w_at become].
  apply (set_at_cases (fun k p => holds_at (gen_at (disk (w_sys s)) 0) k p)); auto.
Qed.
Lemma winv_step s s' : winv s -> wstep C targets s s' -> quiet (w_done s') -> winv s'.
Proof.
  intros W St Q. pose proof W as (E & Hi & HA). destruct St; try (apply winv_become; [exact W|exact Logic.I]).
  - apply winv_action; auto; try exact Logic.I.
    apply (set_at_cases (fun k p => holds_at (gen_at (disk (w_sys s)) 0) k p)); [exact Logic.I|exact HA].
  - apply winv_become; [exact W|]. cbn. rewrite E in H0.
    destruct (returned_ensures C n _ _ _ _ _ (history_sys C n S0 _ Hi) H0) as (σ0 & _ & v & Ev & X). injection Ev as <-.
    destruct x as [imp refs]. rewrite E. apply X.
  - apply winv_become; [exact W|]. cbn. exists b, implied, refs. split; [assumption|]. split; [assumption|]. split; [assumption|].
    intros j Hj. destruct (String.eqb_spec j k) as [->|Ne]; [now left|right].
    match goal with X : forall j, In j implied -> _ |- _ => pose proof (HA j) as Y; rewrite (X j Hj Ne) in Y end. exact Y.
  - apply winv_action; auto; try exact Logic.I.
    + cbn [contract]. match goal with X : w_at s k = Fetched |- _ => pose proof (HA k) as Y; rewrite X in Y end.
      destruct Y as (b' & i & r & F & P & RA & IM). assert (b' = b) as -> by congruence. exists i, r. auto.
    + apply (set_at_cases (fun k p => holds_at (gen_at (disk (w_sys s)) 0) k p)); [exact Logic.I|exact HA].
  - apply winv_become; [exact W|]. cbn. rewrite E in H0.
    destruct (returned_ensures C n _ _ _ _ _ (history_sys C n S0 _ Hi) H0) as (σ0 & _ & _ & X). rewrite E. exact X.
  - apply winv_action; auto; try exact Logic.I. reflexivity.
  - apply winv_action; auto; exact Logic.I.
Qed.
Lemma wstep_done s s' : wstep C targets s s' -> exists l, w_done s' = w_done s ++ l.
Proof. intros []; cbn; try (exists []; now rewrite app_nil_r); eauto. Qed.
Lemma wsteps_done s s' : wsteps C targets s s' -> exists l, w_done s' = w_done s ++ l.
Proof.
  induction 1 as [|s1 s2 _ [l IH] St]; [exists []; now rewrite app_nil_r|]. destruct (wstep_done _ _ St) as [l2 E].
  exists (l ++ l2). now rewrite E, IH, app_assoc.
Qed.
Lemma winv_steps s s' : winv s -> wsteps C targets s s' -> quiet (w_done s') -> winv s'.
Proof.
  intros W St. induction St as [|s1 s2 _ IH St]; intros Q; [exact W|].
  eapply winv_step; [|exact St|exact Q]. apply IH. destruct (wstep_done _ _ St) as [l E]. rewrite E in Q. now apply quiet_app in Q.
Qed.
Lemma wsys_done before s : wsteps C targets (begin_writing C n before) s -> w_sys s = reached C n (w_done s).
Proof.
  induction 1 as [|s1 s2 _ IH St]; [reflexivity|]. destruct St; cbn [act_on become w_sys w_done]; try exact IH;
    rewrite reached_app, <- IH; reflexivity.
Qed.
Lemma winv_begin before : history C n before -> winv (begin_writing C n before).
Proof. intros Hi. split; [reflexivity|]. split; [exact Hi|]. intros k. exact Logic.I. Qed.
End Writer.
