(** Invariants of the traversal. *)

From Coq Require Import List Arith Bool ZArith Lia.
From Verif Require Import Async.Lists Dag.Traverse.
Import ListNotations.

(** The graph is linked in both directions, and outputs are not repeated. *)
Record wf (g : graph) : Prop := {
  wf_cons : forall a c, count_occ Nat.eq_dec (consumers g a) c = count_occ Nat.eq_dec (deps g c) a;
  wf_outs : forall a c, In a (outs g c) <-> builder g a = Some c;
  wf_nodup : forall c, NoDup (outs g c)
}.

Lemma node_eqb_spec : forall x y, reflect (x = y) (node_eqb x y).
Proof.
  intros [a|a] [b|b]; cbn; try (constructor; congruence);
    destruct (Nat.eqb_spec a b); constructor; congruence.
Qed.

Definition b2n (b : bool) : nat := if b then 1 else 0.
Definition nn (x y : node) : nat := b2n (node_eqb x y).
Definition eqn (a b : nat) : nat := b2n (Nat.eqb a b).

(** Counting instructions. *)
Definition is_visit n i := match i with IVisit m => nn n m | _ => 0 end.
Definition is_avail a i := match i with IAvail b => eqn a b | _ => 0 end.
Definition is_dep a i := match i with IDep b => eqn a b | _ => 0 end.
Definition is_ready c i := match i with IReady d => eqn c d | _ => 0 end.
Definition is_qvisit n i := match i with IQVisit m => nn n m | _ => 0 end.
Definition is_qproc n i := match i with IQProc m => nn n m | _ => 0 end.
Definition is_proc n i := match i with IProc m => nn n m | _ => 0 end.
Definition is_end n i := match i with IEnd m => nn n m | _ => 0 end.
Definition is_notify a i := match i with INotify b => eqn a b | _ => 0 end.
Definition is_dec c i := match i with IDec d => eqn c d | _ => 0 end.
Definition is_abort i := match i with IAbort => 1 | _ => 0 end.
Definition is_target a i :=
  match i with ITargets l => count_occ Nat.eq_dec l a | _ => 0 end.

Definition cnt (f : instr -> nat) (s : state) : nat := sum (sum f) (tasks s).

Definition starts n (s : state) : nat :=
  sum (fun e => match e with EStart m => nn n m | _ => 0 end) (log s).
Definition ends n (s : state) : nat :=
  sum (fun e => match e with EEnd m _ => nn n m | _ => 0 end) (log s).
Definition okends n (s : state) : nat :=
  sum (fun e => match e with EEnd m true => nn n m | _ => 0 end) (log s).
Definition fails (s : state) : nat :=
  sum (fun e => match e with EEnd _ false => 1 | _ => 0 end) (log s).

(** Whose processing makes an artifact available. *)
Definition owner (g : graph) (a : nat) : node :=
  match builder g a with Some c => Act c | None => Art a end.

Definition missing (g : graph) (s : state) (c : nat) : nat :=
  sum (fun d => b2n (negb (avail s d))) (deps g c).

(** What is needed for the targets. *)
Inductive needed (g : graph) (targets : list nat) : node -> Prop :=
  | n_target : forall a, In a targets -> needed g targets (Art a)
  | n_builder : forall a c, needed g targets (Art a) -> builder g a = Some c ->
      needed g targets (Act c)
  | n_dep : forall c d, needed g targets (Act c) -> In d (deps g c) -> needed g targets (Art d).

(** Order in the log: an action starts after the owners of its inputs ended. *)
Definition ordered (g : graph) (l : list event) : Prop :=
  forall l1 c l2, l = l1 ++ EStart (Act c) :: l2 ->
    forall d, In d (deps g c) -> In (EEnd (owner g d) true) l2.

Definition instr_ok (g : graph) (targets : list nat) (i : instr) : Prop :=
  match i with
  | ITargets l => incl l targets
  | IVisit n | IQVisit n => needed g targets n
  | IAvail a | IDep a => needed g targets (Art a)
  | IQProc (Art a) => builder g a = None
  | IProc (Art a) => builder g a = None
  | IEnd (Art a) => builder g a = None
  | _ => True
  end.

Record Inv (g : graph) (targets : list nat) (s : state) : Prop := {
  j_unav : forall c, unav s c = Z.of_nat (missing g s c + cnt (is_dec c) s);
  j_queued : forall n, cnt (is_proc n) s + starts n s <= b2n (queued s n);
  j_queued2 : failed s = false -> forall n, queued s n = true -> 0 < cnt (is_proc n) s + starts n s;
  j_ends : forall n, starts n s = cnt (is_end n) s + ends n s;
  j_oks : forall a, okends (owner g a) s = cnt (is_notify a) s + b2n (avail s a);
  j_ready : forall c, 0 < cnt (is_qproc (Act c)) s \/ queued s (Act c) = true -> unav s c = 0%Z;
  j_instr : forall t i, In t (tasks s) -> In i t -> instr_ok g targets i;
  j_leaf : forall a, queued s (Art a) = true -> builder g a = None;
  j_req : forall n, queued s n = true -> req s n = true;
  j_need : forall n, disc s n = true \/ req s n = true -> needed g targets n;
  j_fails : 0 < fails s -> failed s = true \/ 0 < cnt is_abort s;
  j_disc : failed s = false -> forall n, disc s n = true -> 0 < cnt (is_visit n) s \/ req s n = true;
  j_art : failed s = false -> forall a, req s (Art a) = true ->
    avail s a = true \/ 0 < cnt (is_avail a) s \/
    match builder g a with
    | Some c => 0 < cnt (is_qvisit (Act c)) s \/ disc s (Act c) = true
    | None => 0 < cnt (is_qproc (Art a)) s \/ queued s (Art a) = true
    end;
  j_act : failed s = false -> forall c d, req s (Act c) = true -> In d (deps g c) ->
    avail s d = true \/ 0 < cnt (is_dep d) s \/ 0 < cnt (is_qvisit (Art d)) s \/ disc s (Art d) = true;
  j_race : failed s = false -> forall c, req s (Act c) = true -> unav s c = 0%Z ->
    queued s (Act c) = true \/ 0 < cnt (is_ready c) s \/ 0 < cnt (is_qproc (Act c)) s;
  j_targets : failed s = false -> 0 < cnt is_abort s \/ forall a, In a targets ->
    0 < cnt (is_target a) s \/ 0 < cnt (is_qvisit (Art a)) s \/ disc s (Art a) = true;
  j_ord : ordered g (log s)
}.

(** ** Auxiliary facts *)

Lemma nn_refl : forall n, nn n n = 1.
Proof. intros n. unfold nn. destruct (node_eqb_spec n n); [reflexivity|congruence]. Qed.

Lemma nn_pos : forall n m, 0 < nn n m -> m = n.
Proof. intros n m. unfold nn. destruct (node_eqb_spec n m); cbn; [congruence|lia]. Qed.

Lemma eqn_refl : forall n, eqn n n = 1.
Proof. intros n. unfold eqn. now rewrite Nat.eqb_refl. Qed.

Lemma set_same : forall f n, set f n n = true.
Proof. intros f n. unfold set. destruct (node_eqb_spec n n); [reflexivity|congruence]. Qed.

Lemma set_mono : forall f n m, f m = true -> set f n m = true.
Proof. intros f n m H. unfold set. now destruct (node_eqb n m). Qed.

Lemma set_inv : forall f n m, set f n m = true -> m = n \/ f m = true.
Proof. intros f n m. unfold set. destruct (node_eqb_spec n m); auto. Qed.

Lemma b2n_set : forall f n m, f n = false -> b2n (set f n m) = b2n (f m) + nn m n.
Proof.
  intros f n m H. unfold set, nn.
  destruct (node_eqb_spec n m) as [E|N], (node_eqb_spec m n); try congruence; cbn; try lia.
  rewrite <- E, H. reflexivity.
Qed.

Lemma sum_map : forall {A B} (f : B -> nat) (h : A -> B) l, sum f (map h l) = sum (fun a => f (h a)) l.
Proof. intros A B f h l. induction l as [|a l IH]; cbn; auto. Qed.

Lemma sum_eqn : forall a l, sum (eqn a) l = count_occ Nat.eq_dec l a.
Proof.
  intros a l. induction l as [|b l IH]; cbn [sum count_occ]; [reflexivity|]. rewrite IH. unfold eqn.
  destruct (Nat.eq_dec b a) as [->|N].
  - rewrite Nat.eqb_refl. reflexivity.
  - destruct (Nat.eqb_spec a b); [congruence|reflexivity].
Qed.

Lemma sum_const0 : forall {A} (l : list A), sum (fun _ => 0) l = 0.
Proof. intros A l. induction l; cbn; auto. Qed.

(** ** Effect of a step on the counts *)

Lemma cnt_step : forall s k i rest first new f s1, nth_error (tasks s) k = Some (i :: rest) ->
  cnt f (set_tasks s1 (upd (tasks s) k (first ++ rest) ++ new)) + f i
  = cnt f s + sum f first + sum (sum f) new.
Proof.
  intros s k i rest first new f s1 H. unfold cnt. cbn [tasks set_tasks].
  rewrite sum_app. pose proof (sum_upd (sum f) _ _ _ (first ++ rest) H) as U.
  rewrite sum_app in U. cbn [sum] in U. lia.
Qed.

Record Ctx (g : graph) (targets : list nat) (s s1 : state) (ch : bool) (i : instr)
           (first : list instr) (new T : list (list instr)) : Prop := {
  x_wf : wf g;
  x_inv : Inv g targets s;
  x_exec : exec g s ch i = (s1, first, new);
  x_cnt : forall f, cnt f (set_tasks s1 T) + f i = cnt f s + sum f first + sum (sum f) new;
  x_in : exists t, In t (tasks s) /\ In i t;
  x_tasks : forall t j, In t T -> In j t ->
    (exists u, In u (tasks s) /\ In j u) \/ In j first \/ (exists u, In u new /\ In j u)
}.

Lemma i_ok : forall g targets s s1 ch i first new T, Ctx g targets s s1 ch i first new T -> 
  instr_ok g targets i.
Proof. intros g targets s s1 ch i first new T [W V E D IN TI]. destruct IN as [t [H1 H2]]. eapply j_instr; eauto. Qed.

Lemma i_cnt : forall g targets s s1 ch i first new T, Ctx g targets s s1 ch i first new T -> 
  forall f, f i <= cnt f s.
Proof.
  intros g targets s s1 ch i first new T [W V E D IN TI] f. destruct IN as [t [H1 H2]]. unfold cnt.
  pose proof (sum_In (sum f) _ _ H1). pose proof (sum_In f _ _ H2). lia.
Qed.

Ltac flags := cbn [set_tasks set_req set_disc set_queued set_avail set_unav set_failed set_log
       disc queued req avail unav failed log] in *.

Ltac split_exec W V E D IN TI OK IC i ch s' s1 first new :=
  clear IN TI; subst s'; destruct i as [l|n|a|d|c|n|n|n|n|a|c|];
  cbn [exec] in E;
  [ destruct l as [|a l]; [|destruct (known _ a) eqn:KN]
  | destruct n as [a|c]
  | destruct (avail _ a) eqn:AV; [|destruct (builder _ a) as [c|] eqn:BU]
  | destruct (avail _ d) eqn:AV
  | match type of E with context [Z.eqb (unav ?st c) 0] => destruct (Z.eqb_spec (unav st c) 0) as [UZ|UZ] end
  | match type of E with context [if ?b then _ else _] => destruct b eqn:CO end
  | match type of E with context [if ?b then _ else _] => destruct b eqn:CO end
  |
  | destruct ch; [destruct n as [a|c]|]
  |
  | match type of E with context [Z.eqb (unav ?st c) 1] => destruct (Z.eqb_spec (unav st c) 1) as [UZ|UZ] end
  | ];
  injection E as E1 E2 E3; subst s1 first new;
  cbn [set_tasks set_req set_disc set_queued set_avail set_unav set_failed set_log
       disc queued req avail unav failed log] in *.

Ltac spec D IC f := let H1 := fresh "D1" in let H2 := fresh "C1" in
  pose proof (D f) as H1; pose proof (IC f) as H2;
  cbn [is_visit is_avail is_dep is_ready is_qvisit is_qproc is_proc is_end is_notify is_dec is_abort is_target
       sum Nat.add] in H1, H2;
  rewrite ?sum_app, ?sum_map in H1;
  cbn [is_visit is_avail is_dep is_ready is_qvisit is_qproc is_proc is_end is_notify is_dec is_abort is_target
       sum Nat.add] in H1;
  rewrite ?sum_const0, ?Nat.add_0_r in H1.

(** Processing of a node ends at most once. *)
Lemma oks_le : forall s n, okends n s <= ends n s.
Proof.
  intros s n. unfold okends, ends. apply sum_le. intros e _. destruct e as [m|m [|]]; lia.
Qed.

Lemma notify_fresh : forall g targets s, Inv g targets s -> forall a, 0 < cnt (is_notify a) s -> avail s a = false.
Proof.
  intros g targets s V a H. pose proof (j_oks _ _ _ V a) as K. pose proof (oks_le s (owner g a)) as L.
  pose proof (j_ends _ _ _ V (owner g a)) as K2. pose proof (j_queued _ _ _ V (owner g a)) as K3.
  destruct (avail s a); [|reflexivity]. cbn [b2n] in K.
  assert (b2n (queued s (owner g a)) <= 1) by (destruct (queued s (owner g a)); cbn; lia). lia.
Qed.

Lemma missing_avail : forall g s a c, avail s a = false ->
  missing g (set_avail s a) c + count_occ Nat.eq_dec (deps g c) a = missing g s c.
Proof.
  intros g s a c H. unfold missing. cbn [avail set_avail].
  induction (deps g c) as [|d l IH]; cbn [sum count_occ]; [reflexivity|]. unfold set_nat at 1.
  destruct (Nat.eq_dec d a) as [->|N].
  - rewrite Nat.eqb_refl, H. cbn [negb b2n]. lia.
  - destruct (Nat.eqb_spec a d); [congruence|]. lia.
Qed.

Lemma s_unav : forall g targets s s1 ch i first new T, Ctx g targets s s1 ch i first new T -> 
  let s' := set_tasks s1 T in forall c, unav s' c = Z.of_nat (missing g s' c + cnt (is_dec c) s').
Proof.
  intros g targets s s1 ch i first new T C s'; pose proof (i_ok _ _ _ _ _ _ _ _ _ C) as OK;
    pose proof (i_cnt _ _ _ _ _ _ _ _ _ C) as IC; destruct C as [W V E D IN TI]; intros c'. pose proof (j_unav _ _ _ V c') as K.
  split_exec W V E D IN TI OK IC i ch s' s1 first new; unfold missing in *; flags; cbn [sum]; spec D IC (is_dec c'); try lia.
  - (* INotify *)
    rewrite sum_eqn, (wf_cons _ W) in D1.
    assert (avail s a = false) as F.
    { apply (notify_fresh _ _ _ V). specialize (IC (is_notify a)). cbn [is_notify] in IC.
      rewrite eqn_refl in IC. exact IC. }
    pose proof (missing_avail g s a c' F) as M. unfold missing in M. cbn [set_avail avail] in M. lia.
  - unfold sub1, eqn in *. rewrite Nat.eqb_sym. destruct (Nat.eqb_spec c' c) as [->|N]; cbn [b2n] in *; lia.
  - unfold sub1, eqn in *. rewrite Nat.eqb_sym. destruct (Nat.eqb_spec c' c) as [->|N]; cbn [b2n] in *; lia.
Qed.

Lemma s_queued : forall g targets s s1 ch i first new T, Ctx g targets s s1 ch i first new T -> 
  let s' := set_tasks s1 T in forall n, cnt (is_proc n) s' + starts n s' <= b2n (queued s' n).
Proof.
  intros g targets s s1 ch i first new T C s'; pose proof (i_ok _ _ _ _ _ _ _ _ _ C) as OK;
    pose proof (i_cnt _ _ _ _ _ _ _ _ _ C) as IC; destruct C as [W V E D IN TI]; intros n'. pose proof (j_queued _ _ _ V n') as K. unfold starts in *.
  split_exec W V E D IN TI OK IC i ch s' s1 first new; flags; cbn [sum]; spec D IC (is_proc n'); try lia.
  apply orb_false_iff in CO. destruct CO as [CO Q].
  rewrite b2n_set by exact Q. lia.
Qed.

Lemma s_queued2 : forall g targets s s1 ch i first new T, Ctx g targets s s1 ch i first new T -> 
  let s' := set_tasks s1 T in failed s' = false -> forall n, queued s' n = true ->
  0 < cnt (is_proc n) s' + starts n s'.
Proof.
  intros g targets s s1 ch i first new T C s'; pose proof (i_ok _ _ _ _ _ _ _ _ _ C) as OK;
    pose proof (i_cnt _ _ _ _ _ _ _ _ _ C) as IC; destruct C as [W V E D IN TI]; intros F n' Q. unfold starts in *.
  assert (failed s = false -> queued s n' = true -> 0 < cnt (is_proc n') s + starts n' s) as K
    by (intros; now apply (j_queued2 _ _ _ V)).
  unfold starts in K.
  split_exec W V E D IN TI OK IC i ch s' s1 first new; flags; cbn [sum]; spec D IC (is_proc n'); try (specialize (K F Q)); try lia;
    try discriminate.
  apply set_inv in Q. destruct Q as [->|Q]; [rewrite nn_refl in *; lia|]. specialize (K F Q). lia.
Qed.

Lemma s_ends : forall g targets s s1 ch i first new T, Ctx g targets s s1 ch i first new T -> 
  let s' := set_tasks s1 T in forall n, starts n s' = cnt (is_end n) s' + ends n s'.
Proof.
  intros g targets s s1 ch i first new T C s'; pose proof (i_ok _ _ _ _ _ _ _ _ _ C) as OK;
    pose proof (i_cnt _ _ _ _ _ _ _ _ _ C) as IC; destruct C as [W V E D IN TI]; intros n'. pose proof (j_ends _ _ _ V n') as K. unfold starts, ends in *.
  split_exec W V E D IN TI OK IC i ch s' s1 first new; flags; cbn [sum]; spec D IC (is_end n'); lia.
Qed.

Lemma owner_leaf : forall g a b, builder g b = None -> nn (owner g a) (Art b) = eqn a b.
Proof.
  intros g a b H. unfold nn, eqn, owner. destruct (builder g a) as [c|] eqn:B; cbn [node_eqb].
  - destruct (Nat.eqb_spec a b) as [->|]; [congruence|reflexivity].
  - reflexivity.
Qed.

Lemma owner_built : forall g, wf g -> forall a c, count_occ Nat.eq_dec (outs g c) a = nn (owner g a) (Act c).
Proof.
  intros g W a c. unfold owner, nn. pose proof (wf_outs _ W a c) as O. pose proof (wf_nodup _ W c) as N.
  rewrite (NoDup_count_occ Nat.eq_dec) in N. specialize (N a).
  destruct (builder g a) as [c'|] eqn:B; cbn [node_eqb].
  - destruct (Nat.eqb_spec c' c) as [->|NE]; cbn [b2n].
    + assert (In a (outs g c)) as I by now apply O. apply (count_occ_In Nat.eq_dec) in I. lia.
    + apply count_occ_not_In. intros I. apply O in I. congruence.
  - cbn [b2n]. apply count_occ_not_In. intros I. apply O in I. congruence.
Qed.

Lemma s_oks : forall g targets s s1 ch i first new T, Ctx g targets s s1 ch i first new T -> 
  let s' := set_tasks s1 T in forall a, okends (owner g a) s' = cnt (is_notify a) s' + b2n (avail s' a).
Proof.
  intros g targets s s1 ch i first new T C s'; pose proof (i_ok _ _ _ _ _ _ _ _ _ C) as OK;
    pose proof (i_cnt _ _ _ _ _ _ _ _ _ C) as IC; destruct C as [W V E D IN TI]; intros a'. pose proof (j_oks _ _ _ V a') as K. unfold okends in *.
  split_exec W V E D IN TI OK IC i ch s' s1 first new; flags; cbn [sum]; spec D IC (is_notify a'); try lia.
  - (* IEnd of a leaf *)
    rewrite owner_leaf by exact OK. lia.
  - rewrite sum_eqn, (owner_built g W) in D1. lia.
  - assert (avail s a = false) as F.
    { apply (notify_fresh _ _ _ V). specialize (IC (is_notify a)). cbn [is_notify] in IC.
      rewrite eqn_refl in IC. exact IC. }
    unfold set_nat, eqn in *. rewrite Nat.eqb_sym.
    destruct (Nat.eqb_spec a' a) as [->|N]; [rewrite F in K|]; cbn [b2n] in *; lia.
Qed.

Lemma s_ready : forall g targets s s1 ch i first new T, Ctx g targets s s1 ch i first new T -> 
  let s' := set_tasks s1 T in forall c, 0 < cnt (is_qproc (Act c)) s' \/ queued s' (Act c) = true -> unav s' c = 0%Z.
Proof.
  intros g targets s s1 ch i first new T C s'; pose proof (i_ok _ _ _ _ _ _ _ _ _ C) as OK;
    pose proof (i_cnt _ _ _ _ _ _ _ _ _ C) as IC; destruct C as [W V E D IN TI]; intros c' H0. pose proof (j_ready _ _ _ V c') as K. pose proof (j_unav _ _ _ V c') as U.
  split_exec W V E D IN TI OK IC i ch s' s1 first new; spec D IC (is_qproc (Act c')); try (apply K; destruct H0 as [H0|H0]; [left; lia|now right]).
  - (* IReady *)
    destruct H0 as [H0|H0]; [|now apply K; right].
    destruct (Nat.eq_dec c c') as [->|N]; [exact UZ|]. apply K. left.
    unfold nn in D1. cbn [node_eqb] in D1. destruct (Nat.eqb_spec c' c); [congruence|]. cbn [b2n] in D1. lia.
  - (* IQProc *)
    destruct H0 as [H0|H0]; [apply K; left; lia|]. apply set_inv in H0. destruct H0 as [<-|H0].
    + apply K. left. rewrite nn_refl in *. lia.
    + apply K. now right.
  - unfold sub1. destruct (Nat.eqb_spec c c') as [->|N]; [lia|].
    apply K. destruct H0 as [H0|H0]; [left|now right].
    unfold nn in D1. cbn [node_eqb] in D1. destruct (Nat.eqb_spec c' c); [congruence|]. cbn [b2n] in D1. lia.
  - unfold sub1. destruct (Nat.eqb_spec c c') as [->|N].
    + exfalso. spec D IC (is_dec c'). rewrite eqn_refl in *.
      assert (unav s c' = 0%Z) by (apply K; destruct H0 as [H0|H0]; [left; lia|now right]). lia.
    + apply K. destruct H0 as [H0|H0]; [left; lia|now right].
Qed.

Lemma s_instr : forall g targets s s1 ch i first new T, Ctx g targets s s1 ch i first new T -> 
  let s' := set_tasks s1 T in forall t j, In t (tasks s') -> In j t -> instr_ok g targets j.
Proof.
  intros g targets s s1 ch i first new T C s'; pose proof (i_ok _ _ _ _ _ _ _ _ _ C) as OK;
    pose proof (i_cnt _ _ _ _ _ _ _ _ _ C) as IC; destruct C as [W V E D IN TI]; intros t j Ht Hj. subst s'. cbn [set_tasks tasks] in Ht.
  destruct (TI t j Ht Hj) as [[u [U1 U2]]|[F|[u [U1 U2]]]].
  - eapply j_instr; eauto.
  - clear TI D IC IN. revert E. destruct i as [l|n|a|d|c|n|n|n|n|a|c|]; cbn [exec]; intros E.
    + destruct l as [|a l]; [injection E as <- <- <-; destruct F|].
      cbn in OK. destruct (known g a); injection E as <- <- <-.
      * destruct F as [<-|[<-|[]]]; cbn; [constructor; apply OK; now left|].
        intros b Hb. apply OK. now right.
      * destruct F as [<-|[]]. exact I.
    + destruct n as [a|c]; injection E as <- <- <-.
      * destruct F as [<-|[]]. exact OK.
      * apply in_app_iff in F. destruct F as [F|[<-|[]]]; [|exact I].
        apply in_map_iff in F. destruct F as [d [<- F]]. cbn. eapply n_dep; eauto.
    + injection E as <- <- <-. destruct (avail s a); [destruct F|].
      destruct (builder g a) as [c|] eqn:B; destruct F as [<-|[]]; cbn; [|exact B].
      eapply n_builder; eauto.
    + injection E as <- <- <-. destruct (avail s d); [destruct F|]. destruct F as [<-|[]]. exact OK.
    + injection E as <- <- <-. destruct (Z.eqb (unav s c) 0); [|destruct F]. destruct F as [<-|[]]. exact I.
    + destruct (_ || _); injection E as <- <- <-; destruct F.
    + destruct (_ || _); injection E as <- <- <-; destruct F.
    + injection E as <- <- <-. destruct F as [<-|[]]. destruct n; exact OK.
    + injection E as <- <- <-. destruct ch; [destruct n as [a|c]|].
      * destruct F as [<-|[]]. exact I.
      * apply in_map_iff in F. destruct F as [b [<- _]]. exact I.
      * destruct F as [<-|[]]. exact I.
    + injection E as <- <- <-. apply in_map_iff in F. destruct F as [b [<- _]]. exact I.
    + injection E as <- <- <-. destruct (Z.eqb (unav s c) 1); [|destruct F].
      destruct F as [<-|[]]. exact I.
    + injection E as <- <- <-. destruct F.
  - clear TI D IC IN. revert E.
    destruct i as [l|n|a|d|c|n|n|n|n|a|c|]; cbn [exec]; intros E;
      try (destruct l as [|a l]); try (destruct n as [a|c]);
      try (destruct (_ || _)); injection E as <- <- <-;
      try contradiction; destruct U1 as [<-|[]]; destruct U2 as [<-|[]]; exact OK.
Qed.

Lemma s_leaf : forall g targets s s1 ch i first new T, Ctx g targets s s1 ch i first new T -> 
  let s' := set_tasks s1 T in forall a, queued s' (Art a) = true -> builder g a = None.
Proof.
  intros g targets s s1 ch i first new T C s'; pose proof (i_ok _ _ _ _ _ _ _ _ _ C) as OK;
    pose proof (i_cnt _ _ _ _ _ _ _ _ _ C) as IC; destruct C as [W V E D IN TI]; intros a' Q. pose proof (j_leaf _ _ _ V a') as K. split_exec W V E D IN TI OK IC i ch s' s1 first new; try (apply K; exact Q).
  apply set_inv in Q. destruct Q as [<-|Q]; [exact OK|now apply K].
Qed.

Lemma s_req : forall g targets s s1 ch i first new T, Ctx g targets s s1 ch i first new T -> 
  let s' := set_tasks s1 T in forall n, queued s' n = true -> req s' n = true.
Proof.
  intros g targets s s1 ch i first new T C s'; pose proof (i_ok _ _ _ _ _ _ _ _ _ C) as OK;
    pose proof (i_cnt _ _ _ _ _ _ _ _ _ C) as IC; destruct C as [W V E D IN TI]; intros n' Q. pose proof (j_req _ _ _ V n') as K. split_exec W V E D IN TI OK IC i ch s' s1 first new; try (apply K; exact Q);
    try (apply set_mono; apply K; exact Q).
  apply set_inv in Q. destruct Q as [->|Q]; [|now apply K].
  apply orb_false_iff in CO. destruct CO as [CO _]. apply orb_false_iff in CO. destruct CO as [_ CO].
  now apply negb_false_iff in CO.
Qed.

Lemma s_need : forall g targets s s1 ch i first new T, Ctx g targets s s1 ch i first new T -> 
  let s' := set_tasks s1 T in forall n, disc s' n = true \/ req s' n = true -> needed g targets n.
Proof.
  intros g targets s s1 ch i first new T C s'; pose proof (i_ok _ _ _ _ _ _ _ _ _ C) as OK;
    pose proof (i_cnt _ _ _ _ _ _ _ _ _ C) as IC; destruct C as [W V E D IN TI]; intros n' Q. pose proof (j_need _ _ _ V n') as K. split_exec W V E D IN TI OK IC i ch s' s1 first new; try (apply K; exact Q).
  - destruct Q as [Q|Q]; [apply K; now left|]. apply set_inv in Q. destruct Q as [->|Q]; [exact OK|].
    apply K. now right.
  - destruct Q as [Q|Q]; [apply K; now left|]. apply set_inv in Q. destruct Q as [->|Q]; [exact OK|].
    apply K. now right.
  - destruct Q as [Q|Q]; [|apply K; now right]. apply set_inv in Q. destruct Q as [->|Q]; [exact OK|].
    apply K. now left.
Qed.

Lemma s_fails : forall g targets s s1 ch i first new T, Ctx g targets s s1 ch i first new T -> 
  let s' := set_tasks s1 T in 0 < fails s' -> failed s' = true \/ 0 < cnt is_abort s'.
Proof.
  intros g targets s s1 ch i first new T C s'; pose proof (i_ok _ _ _ _ _ _ _ _ _ C) as OK;
    pose proof (i_cnt _ _ _ _ _ _ _ _ _ C) as IC; destruct C as [W V E D IN TI]; intros Q. pose proof (j_fails _ _ _ V) as K. unfold fails in *.
  split_exec W V E D IN TI OK IC i ch s' s1 first new; flags; cbn [sum]; spec D IC is_abort; cbn [sum] in Q;
    try (left; reflexivity);
    try (right; lia);
    try (destruct K as [K|K]; [lia|left; exact K|right; lia]).
Qed.

Lemma s_disc : forall g targets s s1 ch i first new T, Ctx g targets s s1 ch i first new T -> 
  let s' := set_tasks s1 T in failed s' = false -> forall n, disc s' n = true -> 0 < cnt (is_visit n) s' \/ req s' n = true.
Proof.
  intros g targets s s1 ch i first new T C s'; pose proof (i_ok _ _ _ _ _ _ _ _ _ C) as OK;
    pose proof (i_cnt _ _ _ _ _ _ _ _ _ C) as IC; destruct C as [W V E D IN TI]; intros F n' Q.
  assert (failed s = false -> disc s n' = true -> 0 < cnt (is_visit n') s \/ req s n' = true) as K
    by (intros; now apply (j_disc _ _ _ V)).
  split_exec W V E D IN TI OK IC i ch s' s1 first new; spec D IC (is_visit n'); try discriminate;
    try (destruct (K F Q) as [K'|K']; [left; lia|right; exact K']).
  - destruct (K F Q) as [K'|K']; [|right; now apply set_mono].
    unfold nn in D1. destruct (node_eqb_spec n' (Art a)) as [->|N]; [right; apply set_same|].
    cbn [b2n] in D1. left. lia.
  - destruct (K F Q) as [K'|K']; [|right; now apply set_mono].
    unfold nn in D1. destruct (node_eqb_spec n' (Act c)) as [->|N]; [right; apply set_same|].
    cbn [b2n] in D1. left. lia.
  - apply set_inv in Q. destruct Q as [->|Q]; [left; rewrite nn_refl in *; lia|].
    destruct (K F Q) as [K'|K']; [left; lia|right; exact K'].
Qed.

(** ** More fields *)

Lemma s_art : forall g targets s s1 ch i first new T, Ctx g targets s s1 ch i first new T -> 
  let s' := set_tasks s1 T in failed s' = false -> forall a, req s' (Art a) = true ->
    avail s' a = true \/ 0 < cnt (is_avail a) s' \/
    match builder g a with
    | Some c => 0 < cnt (is_qvisit (Act c)) s' \/ disc s' (Act c) = true
    | None => 0 < cnt (is_qproc (Art a)) s' \/ queued s' (Art a) = true
    end.
Proof.
  intros g targets s s1 ch i first new T C s'; pose proof (i_ok _ _ _ _ _ _ _ _ _ C) as OK;
    pose proof (i_cnt _ _ _ _ _ _ _ _ _ C) as IC; destruct C as [W V E D IN TI]; intros  F a' R.
  assert (failed s = false -> req s (Art a') = true -> avail s a' = true \/ 0 < cnt (is_avail a') s \/
    match builder g a' with
    | Some c => 0 < cnt (is_qvisit (Act c)) s \/ disc s (Act c) = true
    | None => 0 < cnt (is_qproc (Art a')) s \/ queued s (Art a') = true
    end) as K by (intros; now apply (j_art _ _ _ V)).
  assert (failed s' = false -> failed s = false) as FF.
  { clear - E. subst s'. intros F. destruct i as [l|n|a|d|c|n|n|n|n|a|c|]; cbn [exec] in E;
      try (destruct l as [|a l]); try (destruct n as [a|c]); try (destruct (_ || _));
      injection E as <- _ _; try exact F; discriminate. }
  specialize (FF F).
  destruct (builder g a') as [c'|] eqn:B.
  - split_exec W V E D IN TI OK IC i ch s' s1 first new; try (specialize (K FF R)); spec D IC (is_avail a'); spec D IC (is_qvisit (Act c'));
      try discriminate;
      try (destruct K as [K|[K|[K|K]]]; [now left|right; left; lia|right; right; left; lia|
           right; right; right; try (apply set_mono); exact K]).
    + apply set_inv in R. destruct R as [R|R].
      * injection R as ->. rewrite eqn_refl in D1. right. left. lia.
      * destruct (K FF R) as [K'|[K'|[K'|K']]]; auto; right; [left|right; left]; lia.
    + destruct (Nat.eq_dec a a') as [->|N]; [now left|]. unfold eqn in D1.
      destruct (Nat.eqb_spec a' a); [congruence|]. cbn [b2n] in D1.
      destruct K as [K|[K|[K|K]]]; auto; right; [left|right; left]; lia.
    + destruct (Nat.eq_dec a a') as [->|N].
      * assert (c = c') as -> by congruence. rewrite nn_refl in D0. right. right. left. lia.
      * unfold eqn in D1.
        destruct (Nat.eqb_spec a' a); [congruence|]. cbn [b2n] in D1.
        destruct K as [K|[K|[K|K]]]; auto; right; [left|right; left]; lia.
    + destruct (Nat.eq_dec a a') as [->|N]; [congruence|]. unfold eqn in D1.
      destruct (Nat.eqb_spec a' a); [congruence|]. cbn [b2n] in D1.
      destruct K as [K|[K|[K|K]]]; auto; right; [left|right; left]; lia.
    + rewrite FF in CO. cbn [andb orb] in CO. unfold nn in D0.
      destruct (node_eqb_spec (Act c') n) as [<-|N]; [right; right; right; exact CO|].
      cbn [b2n] in D0. destruct K as [K|[K|[K|K]]]; auto; right; [left|right; left]; lia.
    + unfold nn in D0. destruct (node_eqb_spec (Act c') n) as [<-|N].
      * right. right. right. apply set_same.
      * cbn [b2n] in D0. destruct K as [K|[K|[K|K]]]; auto; right; [left; lia|right; left; lia|].
        right. right. now apply set_mono.
    + destruct K as [K|[K|[K|K]]]; auto; [left|right; left; lia|right; right; left; lia].
      unfold set_nat. now destruct (Nat.eqb a a').
  - split_exec W V E D IN TI OK IC i ch s' s1 first new; try (specialize (K FF R)); spec D IC (is_avail a'); spec D IC (is_qproc (Art a'));
      try discriminate;
      try (destruct K as [K|[K|[K|K]]]; [now left|right; left; lia|right; right; left; lia|
           right; right; right; try (apply set_mono); exact K]).
    + apply set_inv in R. destruct R as [R|R].
      * injection R as ->. rewrite eqn_refl in D1. right. left. lia.
      * destruct (K FF R) as [K'|[K'|[K'|K']]]; auto; right; [left|right; left]; lia.
    + destruct (Nat.eq_dec a a') as [->|N]; [now left|]. unfold eqn in D1.
      destruct (Nat.eqb_spec a' a); [congruence|]. cbn [b2n] in D1.
      destruct K as [K|[K|[K|K]]]; auto; right; [left|right; left]; lia.
    + destruct (Nat.eq_dec a a') as [->|N]; [congruence|]. unfold eqn in D1.
      destruct (Nat.eqb_spec a' a); [congruence|]. cbn [b2n] in D1.
      destruct K as [K|[K|[K|K]]]; auto; right; [left|right; left]; lia.
    + destruct (Nat.eq_dec a a') as [->|N].
      * rewrite nn_refl in D0. right. right. left. lia.
      * unfold eqn in D1.
        destruct (Nat.eqb_spec a' a); [congruence|]. cbn [b2n] in D1.
        destruct K as [K|[K|[K|K]]]; auto; right; [left|right; left]; lia.
    + rewrite FF in CO. cbn [andb orb] in CO. unfold nn in D0.
      destruct (node_eqb_spec (Art a') n) as [<-|N].
      * rewrite R in CO. cbn [negb orb] in CO. right. right. right. exact CO.
      * cbn [b2n] in D0. destruct K as [K|[K|[K|K]]]; auto; right; [left|right; left]; lia.
    + unfold nn in D0. destruct (node_eqb_spec (Art a') n) as [<-|N].
      * right. right. right. apply set_same.
      * cbn [b2n] in D0. destruct K as [K|[K|[K|K]]]; auto; right; [left; lia|right; left; lia|].
        right. right. now apply set_mono.
    + destruct K as [K|[K|[K|K]]]; auto; [left|right; left; lia|right; right; left; lia].
      unfold set_nat. now destruct (Nat.eqb a a').
Qed.
(** ** Yet more fields *)

Lemma exec_failed : forall g s ch i s1 first new, exec g s ch i = (s1, first, new) ->
  failed s1 = false -> failed s = false.
Proof.
  intros g s ch i s1 first new E F. destruct i as [l|n|a|d|c|n|n|n|n|a|c|]; cbn [exec] in E;
      try (destruct l as [|a l]); try (destruct n as [a|c]); try (destruct (_ || _));
      injection E as <- _ _; try exact F; discriminate.
Qed.

Lemma set_nat_mono : forall f n m, f m = true -> set_nat f n m = true.
Proof. intros f n m H. unfold set_nat. now destruct (Nat.eqb n m). Qed.

Lemma s_act : forall g targets s s1 ch i first new T, Ctx g targets s s1 ch i first new T -> 
  let s' := set_tasks s1 T in failed s' = false ->
  forall c d, req s' (Act c) = true -> In d (deps g c) ->
    avail s' d = true \/ 0 < cnt (is_dep d) s' \/ 0 < cnt (is_qvisit (Art d)) s' \/ disc s' (Art d) = true.
Proof.
  intros g targets s s1 ch i first new T C s'; pose proof (i_ok _ _ _ _ _ _ _ _ _ C) as OK;
    pose proof (i_cnt _ _ _ _ _ _ _ _ _ C) as IC; destruct C as [W V E D IN TI]; intros  F c' d' R J.
  assert (failed s = false -> req s (Act c') = true -> avail s d' = true \/ 0 < cnt (is_dep d') s \/
     0 < cnt (is_qvisit (Art d')) s \/ disc s (Art d') = true) as K
    by (intros; eapply (j_act _ _ _ V); eauto).
  pose proof (exec_failed _ _ _ _ _ _ _ E F) as FF.
  split_exec W V E D IN TI OK IC i ch s' s1 first new; try (specialize (K FF R)); spec D IC (is_dep d'); spec D IC (is_qvisit (Art d'));
      try discriminate;
      try (destruct K as [K|[K|[K|K]]]; [left; try apply set_nat_mono; exact K|right; left; lia|right; right; left; lia|
           right; right; right; try (apply set_mono); exact K]).
  - (* the visit of an action *)
    apply set_inv in R. destruct R as [R|R].
    + injection R as ->. rewrite sum_eqn in D1. apply (count_occ_In Nat.eq_dec) in J.
      right. left. lia.
    + rewrite sum_eqn in D1. destruct (K FF R) as [K'|[K'|[K'|K']]]; auto; right; [left|right; left]; lia.
  - unfold eqn in D1. destruct (Nat.eqb_spec d' d) as [->|N]; [now left|]. cbn [b2n] in D1.
    destruct K as [K|[K|[K|K]]]; auto; right; [left|right; left]; lia.
  - unfold eqn in D1. destruct (Nat.eqb_spec d' d) as [->|N].
    + rewrite nn_refl in D0. right. right. left. lia.
    + cbn [b2n] in D1. destruct K as [K|[K|[K|K]]]; auto; right; [left|right; left]; lia.
  - rewrite FF in CO. cbn [andb orb] in CO. unfold nn in D0.
    destruct (node_eqb_spec (Art d') n) as [<-|N]; [right; right; right; exact CO|].
    cbn [b2n] in D0. destruct K as [K|[K|[K|K]]]; auto; right; [left|right; left]; lia.
  - unfold nn in D0. destruct (node_eqb_spec (Art d') n) as [<-|N].
    + right. right. right. apply set_same.
    + cbn [b2n] in D0. destruct K as [K|[K|[K|K]]]; auto; right; [left; lia|right; left; lia|].
      right. right. now apply set_mono.
Qed.

Lemma s_race : forall g targets s s1 ch i first new T, Ctx g targets s s1 ch i first new T -> 
  let s' := set_tasks s1 T in failed s' = false ->
  forall c, req s' (Act c) = true -> unav s' c = 0%Z ->
    queued s' (Act c) = true \/ 0 < cnt (is_ready c) s' \/ 0 < cnt (is_qproc (Act c)) s'.
Proof.
  intros g targets s s1 ch i first new T C s'; pose proof (i_ok _ _ _ _ _ _ _ _ _ C) as OK;
    pose proof (i_cnt _ _ _ _ _ _ _ _ _ C) as IC; destruct C as [W V E D IN TI]; intros  F c' R U.
  assert (failed s = false -> req s (Act c') = true -> unav s c' = 0%Z ->
    queued s (Act c') = true \/ 0 < cnt (is_ready c') s \/ 0 < cnt (is_qproc (Act c')) s) as K
    by (intros; eapply (j_race _ _ _ V); eauto).
  pose proof (exec_failed _ _ _ _ _ _ _ E F) as FF.
  split_exec W V E D IN TI OK IC i ch s' s1 first new; try (specialize (K FF R U)); spec D IC (is_ready c'); spec D IC (is_qproc (Act c'));
      try discriminate;
      try (destruct K as [K|[K|K]]; [left; try (apply set_mono); exact K|right; left; lia|right; right; lia]).
  - (* the visit of an action *)
    apply set_inv in R. destruct R as [R|R].
    + injection R as ->. rewrite eqn_refl in D1. right. left. lia.
    + destruct (K FF R U) as [K'|[K'|K']]; auto; right; [left|right]; lia.
  - unfold eqn in D1. destruct (Nat.eqb_spec c' c) as [->|N].
    + rewrite nn_refl in D0. right. right. lia.
    + cbn [b2n] in D1. destruct K as [K|[K|K]]; auto; right; [left|right]; lia.
  - unfold eqn in D1. destruct (Nat.eqb_spec c' c) as [->|N]; [contradiction|].
    cbn [b2n] in D1. destruct K as [K|[K|K]]; auto; right; [left|right]; lia.
  - rewrite FF in CO. cbn [andb orb] in CO. unfold nn in D0.
    destruct (node_eqb_spec (Act c') n) as [<-|N].
    + rewrite R in CO. cbn [negb orb] in CO. now left.
    + cbn [b2n] in D0. destruct K as [K|[K|K]]; auto; right; [left|right]; lia.
  - unfold nn in D0. destruct (node_eqb_spec (Act c') n) as [<-|N].
    + left. apply set_same.
    + cbn [b2n] in D0. destruct K as [K|[K|K]]; [left; now apply set_mono|right; left; lia|right; right; lia].
  - unfold sub1 in U. destruct (Nat.eqb_spec c c') as [->|N].
    + rewrite nn_refl in D0. right. right. lia.
    + destruct (K FF R U) as [K'|[K'|K']]; auto; right; [left|right]; lia.
  - unfold sub1 in U. destruct (Nat.eqb_spec c c') as [->|N]; [lia|].
    destruct (K FF R U) as [K'|[K'|K']]; auto; right; [left|right]; lia.
Qed.

Lemma s_targets : forall g targets s s1 ch i first new T, Ctx g targets s s1 ch i first new T -> 
  let s' := set_tasks s1 T in failed s' = false ->
  0 < cnt is_abort s' \/ forall a, In a targets ->
    0 < cnt (is_target a) s' \/ 0 < cnt (is_qvisit (Art a)) s' \/ disc s' (Art a) = true.
Proof.
  intros g targets s s1 ch i first new T C s'; pose proof (i_ok _ _ _ _ _ _ _ _ _ C) as OK;
    pose proof (i_cnt _ _ _ _ _ _ _ _ _ C) as IC; destruct C as [W V E D IN TI]; intros  F. pose proof (exec_failed _ _ _ _ _ _ _ E F) as FF.
  pose proof (j_targets _ _ _ V FF) as [K|K].
  - left. split_exec W V E D IN TI OK IC i ch s' s1 first new; spec D IC is_abort; try discriminate; lia.
  - split_exec W V E D IN TI OK IC i ch s' s1 first new; try discriminate; try (left; spec D IC is_abort; lia); right; intros a' J; specialize (K a' J);
      spec D IC (is_target a'); spec D IC (is_qvisit (Art a'));
      try (destruct K as [K|[K|K]]; [left; lia|right; left; lia|right; right; try (apply set_mono); exact K]).
    + cbn [count_occ] in D1. destruct (Nat.eq_dec a a') as [->|N].
      * rewrite nn_refl in D0. right. left. lia.
      * destruct K as [K|[K|K]]; [left; lia|right; left; lia|auto].
    + rewrite FF in CO. cbn [andb orb] in CO. unfold nn in D0.
      destruct (node_eqb_spec (Art a') n) as [<-|N]; [auto|].
      cbn [b2n] in D0. destruct K as [K|[K|K]]; [left; lia|right; left; lia|auto].
    + unfold nn in D0. destruct (node_eqb_spec (Art a') n) as [<-|N].
      * right. right. apply set_same.
      * cbn [b2n] in D0. destruct K as [K|[K|K]]; [left; lia|right; left; lia|].
        right. right. now apply set_mono.
Qed.

Lemma okends_in : forall n l, 0 < sum (fun e => match e with EEnd m true => nn n m | _ => 0 end) l ->
  In (EEnd n true) l.
Proof.
  intros n l. induction l as [|e l IH]; cbn [sum]; intros H; [lia|].
  destruct e as [m|m [|]]; try (right; apply IH; lia).
  destruct (node_eqb_spec n m) as [->|N]; [now left|]. right. apply IH. unfold nn in H.
  destruct (node_eqb_spec n m); [congruence|]. exact H.
Qed.

(** An action that may be processed has all its inputs. *)
Lemma inputs_there : forall g targets s, Inv g targets s -> forall c d, unav s c = 0%Z ->
  In d (deps g c) -> avail s d = true /\ In (EEnd (owner g d) true) (log s).
Proof.
  intros g targets s V c d U J. pose proof (j_unav _ _ _ V c) as K. rewrite U in K.
  assert (missing g s c = 0) as M by lia. unfold missing in M.
  pose proof (sum_zero_inv _ _ M d J) as A. cbn beta in A. destruct (avail s d) eqn:AV; [|cbn in A; discriminate].
  split; [reflexivity|]. pose proof (j_oks _ _ _ V d) as O. rewrite AV in O. cbn [b2n] in O.
  apply okends_in. unfold okends in O. lia.
Qed.

Lemma s_ord : forall g targets s s1 ch i first new T, Ctx g targets s s1 ch i first new T -> 
  let s' := set_tasks s1 T in ordered g (log s').
Proof.
  intros g targets s s1 ch i first new T C s'; pose proof (i_ok _ _ _ _ _ _ _ _ _ C) as OK;
    pose proof (i_cnt _ _ _ _ _ _ _ _ _ C) as IC; destruct C as [W V E D IN TI]; idtac.
  pose proof (j_ord _ _ _ V) as K.
  assert (forall e, (forall c, e = EStart (Act c) ->
            forall d, In d (deps g c) -> In (EEnd (owner g d) true) (log s)) ->
            ordered g (e :: log s)) as A.
  { intros e H l1 c l2 El d J. destruct l1 as [|e' l1]; cbn in El.
    - injection El as -> <-. now apply (H c).
    - injection El as _ El. eapply K; eauto. }
  split_exec W V E D IN TI OK IC i ch s' s1 first new; try exact K.
  - (* IProc *)
    apply A. intros c Ec d J. injection Ec as ->.
    assert (queued s (Act c) = true) as Q.
    { pose proof (j_queued _ _ _ V (Act c)) as QQ. specialize (IC (is_proc (Act c))). cbn [is_proc] in IC.
      rewrite nn_refl in IC. destruct (queued s (Act c)); [reflexivity|cbn in QQ; lia]. }
    eapply inputs_there; eauto. eapply j_ready; eauto.
  - apply A. discriminate.
  - apply A. discriminate.
  - apply A. discriminate.
Qed.

(** ** Every step keeps the invariant *)

Lemma in_tasks_step : forall (ts : list (list instr)) k i rest first new t j,
  nth_error ts k = Some (i :: rest) -> In t (upd ts k (first ++ rest) ++ new) -> In j t ->
  (exists u, In u ts /\ In j u) \/ In j first \/ (exists u, In u new /\ In j u).
Proof.
  intros ts k i rest first new t j H Ht Hj. apply in_app_iff in Ht. destruct Ht as [Ht|Ht]; [|eauto].
  apply In_upd in Ht. destruct Ht as [->|Ht]; [|eauto].
  apply in_app_iff in Hj. destruct Hj as [Hj|Hj]; [auto|]. left. exists (i :: rest).
  split; [eapply nth_error_In; eauto|now right].
Qed.

Lemma inv_do : forall g targets s k ch s', wf g -> Inv g targets s ->
  step g s (Do k ch) = Some s' -> Inv g targets s'.
Proof.
  intros g targets s k ch s' W V H. cbn [step] in H.
  destruct (nth_error (tasks s) k) as [[|i rest]|] eqn:N; try discriminate.
  destruct (exec g s ch i) as [[s1 first] new] eqn:E. injection H as <-.
  assert (Ctx g targets s s1 ch i first new (upd (tasks s) k (first ++ rest) ++ new)) as C.
  { constructor; auto.
    - intros f. eapply cnt_step; eauto.
    - exists (i :: rest). split; [eapply nth_error_In; eauto|now left].
    - intros t j Ht Hj. eapply in_tasks_step; eauto. }
  constructor.
  - apply (s_unav _ _ _ _ _ _ _ _ _ C).
  - apply (s_queued _ _ _ _ _ _ _ _ _ C).
  - apply (s_queued2 _ _ _ _ _ _ _ _ _ C).
  - apply (s_ends _ _ _ _ _ _ _ _ _ C).
  - apply (s_oks _ _ _ _ _ _ _ _ _ C).
  - apply (s_ready _ _ _ _ _ _ _ _ _ C).
  - apply (s_instr _ _ _ _ _ _ _ _ _ C).
  - apply (s_leaf _ _ _ _ _ _ _ _ _ C).
  - apply (s_req _ _ _ _ _ _ _ _ _ C).
  - apply (s_need _ _ _ _ _ _ _ _ _ C).
  - apply (s_fails _ _ _ _ _ _ _ _ _ C).
  - apply (s_disc _ _ _ _ _ _ _ _ _ C).
  - apply (s_art _ _ _ _ _ _ _ _ _ C).
  - apply (s_act _ _ _ _ _ _ _ _ _ C).
  - apply (s_race _ _ _ _ _ _ _ _ _ C).
  - apply (s_targets _ _ _ _ _ _ _ _ _ C).
  - apply (s_ord _ _ _ _ _ _ _ _ _ C).
Qed.

Lemma inv_drop : forall g targets s k s', Inv g targets s ->
  step g s (Drop k) = Some s' -> Inv g targets s'.
Proof.
  intros g targets s k s' V H. cbn [step] in H.
  assert (exists i, nth_error (tasks s) k = Some [i] /\ failed s = true /\
            s' = set_tasks s (upd (tasks s) k []) /\
            ((exists n, i = IVisit n) \/ (exists n, i = IProc n))) as [i [N [F [-> X]]]].
  { destruct (nth_error (tasks s) k) as [t|]; [|discriminate].
    destruct t as [|i t]; [discriminate|].
    destruct i; try discriminate; destruct t; try discriminate;
      destruct (failed s); try discriminate; injection H as <-; eexists; eauto 8. }
  clear H.
  assert (forall f, cnt f (set_tasks s (upd (tasks s) k [])) + f i = cnt f s) as D.
  { intros f. unfold cnt. cbn [set_tasks tasks]. pose proof (sum_upd (sum f) _ _ _ [] N) as U.
    cbn [sum] in U. lia. }
  assert (forall f, (forall n, f (IVisit n) = 0) -> (forall n, f (IProc n) = 0) ->
            cnt f (set_tasks s (upd (tasks s) k [])) = cnt f s) as D0.
  { intros f A B. specialize (D f). destruct X as [[n ->]|[n ->]]; rewrite ?A, ?B in D; lia. }
  constructor; try (intros F'; cbn in F'; congruence).
  - intros c. rewrite D0 by reflexivity. apply (j_unav _ _ _ V).
  - intros n. specialize (D (is_proc n)). pose proof (j_queued _ _ _ V n).
    unfold starts in *. cbn [set_tasks log queued] in *. lia.
  - intros n. rewrite D0 by reflexivity. apply (j_ends _ _ _ V).
  - intros a. rewrite D0 by reflexivity. apply (j_oks _ _ _ V).
  - intros c Q. rewrite D0 in Q by reflexivity. now apply (j_ready _ _ _ V).
  - intros t j Ht Hj. cbn [set_tasks tasks] in Ht. apply In_upd in Ht. destruct Ht as [->|Ht]; [destruct Hj|].
    eapply j_instr; eauto.
  - apply (j_leaf _ _ _ V).
  - apply (j_req _ _ _ V).
  - apply (j_need _ _ _ V).
  - intros _. left. exact F.
  - apply (j_ord _ _ _ V).
Qed.

Lemma inv_step : forall g targets s a s', wf g -> Inv g targets s ->
  step g s a = Some s' -> Inv g targets s'.
Proof.
  intros g targets s a s' W V H. destruct a as [k ch|k]; [eapply inv_do|eapply inv_drop]; eauto.
Qed.

Lemma inv_init : forall g targets, Inv g targets (init g targets).
Proof.
  intros g targets. constructor; unfold init, cnt, starts, ends, okends, fails, missing;
    cbn [disc queued req avail unav failed tasks log sum is_visit is_avail is_dep is_ready is_qvisit
         is_qproc is_proc is_end is_notify is_dec is_abort is_target b2n negb Nat.add];
    try (intros; lia).
  - intros c. f_equal. rewrite Nat.add_0_r. induction (deps g c); cbn; auto.
  - intros t j [<-|[]] [<-|[]]. cbn. apply incl_refl.
  all: try discriminate; try (intros; discriminate); try (intros n [H|H]; discriminate).
  - intros _. right. intros a J. left. apply (count_occ_In Nat.eq_dec) in J. lia.
  - intros l1 c l2 H. destruct l1; discriminate.
Qed.

Lemma inv_run : forall g targets l s s', wf g -> Inv g targets s ->
  run g s l = Some s' -> Inv g targets s'.
Proof.
  intros g targets l. induction l as [|a l IH]; intros s s' W V H; cbn [run] in H.
  - injection H as <-. exact V.
  - destruct (step g s a) as [s1|] eqn:E; [|discriminate]. apply (IH s1 s' W); [|exact H]. eapply inv_step; eauto.
Qed.
