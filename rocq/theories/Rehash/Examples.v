(** Executions, one request after the other, and hash functions to run them with. *)
From Coq Require Import String Ascii List Bool NArith Arith Lia Permutation.
From Verif Require Import Common.Strs Hex.Model Hex.Proofs Describe.Model Executor.Wire Rehash.Directory Rehash.DirectoryProofs.
From Verif Require Import GitTree.Model GitTree.Spec TreeOps.Spec.
From Verif Require Import Rehash.Model Rehash.Spec Rehash.Nodes Rehash.Frame.
Import ListNotations.
Local Open Scope string_scope.
Local Open Scope list_scope.

Section Run.
Variable H : string -> string.
Variable H2 : string -> string.
Variable utf8 : string -> bool.
Variable native : bool.
Variable source : objects.
Notation ord := (fun l : list (string * entry) => l).
Notation reachable := (reachable H H2 utf8 ord native source).

Definition answers_to (t : otype) (h : string) (o : bool * string) : bool :=
  if native then String.eqb (H2 (snd o)) h
  else (Bool.eqb (fst o) (IsTreeObject t) && String.eqb (d_hash (nat_digest H (IsTreeObject t) (snd o))) h)%bool.

(** Let a thread run alone. [st_threads] is not used. *)
Fixpoint exec {A} (p : prog A) (m : list mapping) (o : list objects) (e : objects) : option (A * (list mapping * list objects * objects)) :=
  match p with
  | Ret a => Some (a, (m, o, e))
  | Lookup h k =>
      match find_mapping m h with
      | None => exec (k LNone) m o e
      | Some (g, i) => exec (k (LFound i)) (link_young h (g, i) m) o e
      end
  | Remember h i k => exec (k true) (add_young (h, i) m) o e
  | Read t h k => match find (answers_to t h) source with Some d => exec (k (Some (snd d))) m o e | None => None end
  | Store t d k => exec (k true) m (add_young (t, d) o) ((t, d) :: e)
  end.

Lemma thread_step faulty gc fuel n infos ts p p' m o e s' : reachable faulty gc fuel n (mkState m o (ts ++ [(infos, p)]) e) ->
  access H H2 native source faulty p (mkState m o (ts ++ [(infos, p)]) e) p' s' ->
  reachable faulty gc fuel n (mkState (st_maps s') (st_objs s') (ts ++ [(infos, p')]) (st_ever s')).
Proof. intros R A. eapply r_step; [exact R|]. eapply s_thread; [|exact A]. reflexivity. Qed.

Lemma exec_reachable faulty gc fuel n infos ts (p : prog (outcome (list info))) : forall m o e a m' o' e',
  exec p m o e = Some (a, (m', o', e')) -> reachable faulty gc fuel n (mkState m o (ts ++ [(infos, p)]) e) ->
  reachable faulty gc fuel n (mkState m' o' (ts ++ [(infos, Ret a)]) e').
Proof.
  induction p as [a0|h k IH|h i k IH|t h k IH|t d k IH]; intros m o e a m' o' e' E R; cbn [exec] in E.
  - injection E as <- <- <- <-. exact R.
  - destruct (find_mapping m h) as [[g i]|] eqn:F; eapply IH; try exact E.
    + apply (thread_step _ _ _ _ _ _ _ _ _ _ _ _ R (a_lookup_found _ _ _ _ _ _ _ (mkState _ _ _ _) _ _ F)).
    + apply (thread_step _ _ _ _ _ _ _ _ _ _ _ _ R (a_lookup_none _ _ _ _ _ _ _ (mkState _ _ _ _) F)).
  - eapply IH; [exact E|]. apply (thread_step _ _ _ _ _ _ _ _ _ _ _ _ R (a_remember _ _ _ _ _ _ _ _ _)).
  - destruct (find (answers_to t h) source) as [[b d]|] eqn:F; [|discriminate]. apply find_some in F as [I F].
    eapply IH; [exact E|]. refine (thread_step _ _ _ _ _ _ _ _ _ _ _ _ R (a_read _ _ _ _ _ _ _ _ _ _ _)).
    unfold answers_to in F. unfold holds. cbn [fst snd] in F. destruct native.
    + apply String.eqb_eq in F. eauto.
    + apply andb_true_iff in F as [F1 F2]. apply Bool.eqb_prop in F1. apply String.eqb_eq in F2. split; [now rewrite <- F1|exact F2].
  - eapply IH; [exact E|]. apply (thread_step _ _ _ _ _ _ _ _ _ _ _ _ R (a_store _ _ _ _ _ _ _ _ _)).
Qed.

(** Requests and garbage collections, one after the other. *)
Inductive event := Ask (infos : list info) | Collect.
Fixpoint play (fuel : nat) (l : list event) (s : state) : option state :=
  match l with
  | [] => Some s
  | Ask infos :: r =>
      match exec (Rehash H H2 utf8 ord native fuel infos) (st_maps s) (st_objs s) (st_ever s) with
      | Some (a, (m, o, e)) => play fuel r (mkState m o (st_threads s ++ [(infos, Ret a)]) e)
      | None => None
      end
  | Collect :: r => play fuel r (mkState (rotate (st_maps s)) (rotate (st_objs s)) (st_threads s) (st_ever s))
  end.
Definition collects (l : list event) : bool := existsb (fun e => match e with Collect => true | _ => false end) l.

Lemma play_reachable faulty gc fuel n l : (collects l = true -> gc = true) -> forall s s', play fuel l s = Some s' ->
  reachable faulty gc fuel n s -> reachable faulty gc fuel n s'.
Proof.
  induction l as [|[infos|] l IH]; intros C s s'; cbn [play].
  - intros E. now injection E as <-.
  - destruct (exec _ _ _ _) as [[a [[m o] e]]|] eqn:X; [|discriminate]. intros E R. eapply IH; [exact C|exact E|].
    eapply exec_reachable; [exact X|]. eapply r_step; [exact R|]. apply s_start.
  - intros E R. eapply IH; [intros _; apply C; reflexivity|exact E|]. eapply r_step; [exact R|]. apply s_collect. apply C. reflexivity.
Qed.
End Run.

(** ** Hash functions *)
Definition digits (s : string) : N := fold_left (fun a c => (a * 257 + N_of_ascii c + 1)%N) (list_ascii_of_string s) 0%N.
Fixpoint bytes (n : nat) (v : N) : string :=
  match n with O => "" | S m => String (ascii_of_N (v mod 256)) (bytes m (v / 256)) end.
Lemma bytes_length n : forall v, String.length (bytes n v) = n.
Proof. induction n; intros; cbn; auto. Qed.
Definition toy1 (s : string) : string := bytes 20 (digits s).
Definition toy2 (s : string) : string := ToHexString (bytes 32 (digits s)).
Definition any (s : string) : bool := true.
Lemma toy1_length s : String.length (toy1 s) = 20.
Proof. apply bytes_length. Qed.
Lemma toy2_hex : hex_digests toy2 any.
Proof.
  intros s. unfold toy2. destruct (hex_encode_shape (bytes 32 (digits s))) as [L F]. split; [now rewrite L, bytes_length|].
  split; [|reflexivity]. apply IsHexString_iff. eapply Forall_impl; [|exact F]. intros c (m & Hm). exists m. now left.
Qed.

Definition distinct (f : string -> string) (l : list string) : bool :=
  forallb (fun x => forallb (fun y => implb (String.eqb (f x) (f y)) (String.eqb x y)) l) l.
Lemma distinct_free f l (T : string -> Prop) : distinct f l = true -> (forall x, T x -> In x l) -> collision_free f T.
Proof.
  intros D I x y Tx Ty E. unfold distinct in D. rewrite forallb_forall in D. specialize (D x (I x Tx)). rewrite forallb_forall in D.
  specialize (D y (I y Ty)). rewrite E, String.eqb_refl in D. cbn in D. now apply String.eqb_eq.
Qed.

(** ** A directory with two files, a link and a directory. *)
Definition sub : fnode := FDir [("x", FFile true "run")].
Definition root : fnode := FDir [("a", FFile false "data"); ("l", FLink "a"); ("s", sub)].
Definition all : list fnode := [root; FFile false "data"; FLink "a"; sub; FFile true "run"].
Definition in_root (u : fnode) : Prop := In u all.
Lemma root_closed : closed in_root.
Proof.
  intros es x c [E|[E|[E|[E|[E|[]]]]]]; try discriminate; injection E as <-.
  - intros [I|[I|[I|[]]]]; injection I as _ <-; unfold in_root, all; cbn; tauto.
  - intros [I|[]]; injection I as _ <-; unfold in_root, all; cbn; tauto.
Qed.
Ltac name := split; [discriminate|]; split; [|split]; [intros I; cbn in I; intuition discriminate|intros I; cbn in I; intuition discriminate|vm_compute; discriminate].
Ltac sorted := repeat (constructor; [|repeat (constructor; [vm_compute; reflexivity|]); constructor]); constructor.
Lemma root_named u : in_root u -> named u.
Proof.
  assert (S : named sub).
  { apply named_dir. split; [sorted|]. intros x c [I|[]]. injection I as <- <-. split; [name|exact Logic.I]. }
  assert (R : named root).
  { apply named_dir. split; [sorted|]. intros x c [I|[I|[I|[]]]]; injection I as <- <-; (split; [name|]); try exact Logic.I. exact S. }
  intros [<-|[<-|[<-|[<-|[<-|[]]]]]]; try exact Logic.I; assumption.
Qed.
Lemma root_expressible u : in_root u -> expressible toy2 any u.
Proof. intros [<-|[<-|[<-|[<-|[<-|[]]]]]]; repeat split; vm_compute; reflexivity. Qed.
Definition root_source : objects := map (fun u => (is_dir u, git_data toy1 u)) all.
Definition comp_source : objects := map (fun u => (is_dir u, comp_data toy2 u)) all.
Lemma root_free : collision_free toy1 (git_texts toy1 in_root root_source).
Proof.
  apply (distinct_free _ (map (fun u => object_text (is_dir u) (git_data toy1 u)) all)); [vm_compute; reflexivity|].
  intros x [(u & I & ->)|(k & d & I & ->)].
  - apply in_map_iff. eauto.
  - apply in_map_iff in I as (u & E & I). injection E as <- <-. apply in_map_iff. eauto.
Qed.
Lemma comp_free : collision_free toy2 (comp_texts toy2 in_root comp_source).
Proof.
  apply (distinct_free _ (map (comp_data toy2) all)); [vm_compute; reflexivity|].
  intros x [(u & I & ->)|(k & I)].
  - now apply in_map.
  - apply in_map_iff in I as (u & E & I). injection E as _ <-. now apply in_map.
Qed.
Lemma comp_distinct u v : in_root u -> in_root v -> comp_data toy2 u = comp_data toy2 v -> is_dir u = is_dir v.
Proof.
  intros Iu Iv E.
  assert (D : forallb (fun x => forallb (fun y => implb (String.eqb (comp_data toy2 x) (comp_data toy2 y)) (Bool.eqb (is_dir x) (is_dir y))) all) all = true)
    by (vm_compute; reflexivity).
  rewrite forallb_forall in D. specialize (D u Iu). rewrite forallb_forall in D. specialize (D v Iv). rewrite E, String.eqb_refl in D.
  cbn [implb] in D. now apply Bool.eqb_prop.
Qed.
