(** Executions meeting the hypotheses of C115-C117. *)
From Coq Require Import String Ascii List Bool Arith Lia.
From Verif Require Import GitTree.Model Storage.Model Storage.Spec Storage.Facts Storage.Examples Tcache.Model Tcache.Proofs.
Import ListNotations.
Local Open Scope string_scope.
Local Open Scope list_scope.
Local Open Scope nat_scope.

(** An entry "one" referring to a blob, and an entry "two" implying "k1", the key "k0" of a target not analysed now,
    and itself. *)
Definition toyw : config := {|
  cfg_hash := toy_hash;
  cfg_chunker := fun b => map letter (list_ascii_of_string b);
  cfg_parse_tree := fun b => Some (map toy_entry (list_ascii_of_string b));
  cfg_parse_action := fun b => if String.eqb b "res" then Some [(File, "bx")] else None;
  cfg_parse_target := fun b => if String.eqb b "one" then Some ([], [(File, "bx")])
    else if String.eqb b "two" then Some (["k1"; "k0"; "k2"], []) else None;
  cfg_valid_name := fun _ => true;
  cfg_fuel := 60
|}.
Lemma toyw_sane : sane toyw.
Proof.
  split; [| |reflexivity].
  - intros b. cbn. induction b as [|c b IH]; cbn; [reflexivity|now rewrite IH].
  - intros b c. cbn. intros H. apply in_map_iff in H. destruct H as (x & <- & _). reflexivity.
Qed.
Definition toyw_targets : to_write := [("k2", Some "two"); ("k1", Some "one")].

(** Before: the blob and the entry "k0" are stored. *)
Definition steps (th m : nat) : list action := repeat (Step th true) m.
Definition toyw_before : list action :=
  [Start (OStoreBlob "x" false)] ++ steps 0 30 ++ [Start (OStoreTarget "k0" "one")] ++ steps 1 30.

Inductive ev := ERequest (k : id) | EFound (k : id) | EWait (k : id) | EFetched (k : id) | EStore (k : id) | EStored (k : id) | EAccess (th : nat).
Definition is_written (p : progress) : bool := match p with Written => true | _ => false end.
Definition exec (s : writing) (e : ev) : option writing :=
  match e with
  | ERequest k => match w_at s k, find_entry toyw_targets k with
      | Untouched, None => Some (act_on toyw s (Start (OReadTarget k)) k (Reading (next_thread s))) | _, _ => None end
  | EFound k => match w_at s k with
      | Reading th => match nth_error (threads (w_sys s)) th with
          | Some (OReadTarget k', Ret (ATarget (Some _))) => if String.eqb k k' then Some (become s k Written) else None | _ => None end
      | _ => None end
  | EWait k => match w_at s k, find_entry toyw_targets k with
      | Untouched, Some (Some b) => if is_some (cfg_parse_target toyw b) then Some (become s k Waiting) else None | _, _ => None end
  | EFetched k => match w_at s k, find_entry toyw_targets k with
      | Waiting, Some (Some b) => match cfg_parse_target toyw b with
          | Some (imp, refs) => if (forallb (fun j => String.eqb j k || is_written (w_at s j)) imp &&
                forallb (fun p => availb (gen_at (disk (w_sys s)) 0) (fst p) (snd p)) refs)%bool then Some (become s k Fetched) else None
          | None => None end
      | _, _ => None end
  | EStore k => match w_at s k, find_entry toyw_targets k with
      | Fetched, Some (Some b) => Some (act_on toyw s (Start (OStoreTarget k b)) k (Storing (next_thread s))) | _, _ => None end
  | EStored k => match w_at s k with
      | Storing th => match nth_error (threads (w_sys s)) th with
          | Some (OStoreTarget k' _, Ret (ADone true)) => if String.eqb k k' then Some (become s k Written) else None | _ => None end
      | _ => None end
  | EAccess th => Some (mkWriting (perform toyw (w_sys s) (Step th true)) (w_done s ++ [Step th true]) (w_at s))
  end.
Fixpoint exec_all (s : writing) (es : list ev) : option writing :=
  match es with [] => Some s | e :: r => match exec s e with Some s' => exec_all s' r | None => None end end.
Lemma exec_step s e s' : exec s e = Some s' -> wstep toyw toyw_targets s s'.
Proof.
  destruct e as [k|k|k|k|k|k|th]; cbn [exec].
  - destruct (w_at s k) eqn:A; try discriminate. destruct (find_entry toyw_targets k) eqn:F; try discriminate. intros E. injection E as <-. now constructor.
  - destruct (w_at s k) eqn:A; try discriminate. destruct (nth_error (threads (w_sys s)) th) as [[[] [[| | | | |[x|]]|]]|] eqn:T; try discriminate.
    destruct (String.eqb_spec k a) as [->|]; try discriminate. intros E. injection E as <-. eapply w_found; eauto.
  - destruct (w_at s k) eqn:A; try discriminate. destruct (find_entry toyw_targets k) as [[b|]|] eqn:F; try discriminate.
    destruct (cfg_parse_target toyw b) eqn:P; cbn [is_some]; [|discriminate]. intros E. injection E as <-. eapply w_wait; eauto.
  - destruct (w_at s k) eqn:A; try discriminate. destruct (find_entry toyw_targets k) as [[b|]|] eqn:F; try discriminate.
    destruct (cfg_parse_target toyw b) as [[imp refs]|] eqn:P; [|discriminate].
    match goal with |- (if ?x then _ else _) = _ -> _ => destruct x eqn:Q end; [|discriminate]. intros E. injection E as <-. apply andb_prop in Q as [Q1 Q2]. rewrite forallb_forall in Q1, Q2.
    eapply w_fetched; eauto.
    + intros j Hj Ne. specialize (Q1 j Hj). apply orb_prop in Q1 as [Q1|Q1]; [now apply String.eqb_eq in Q1|]. now destruct (w_at s j).
    + intros t d Hd. apply availb_spec. exact (Q2 (t, d) Hd).
  - destruct (w_at s k) eqn:A; try discriminate. destruct (find_entry toyw_targets k) as [[b|]|] eqn:F; try discriminate. intros E. injection E as <-. now constructor.
  - destruct (w_at s k) eqn:A; try discriminate. destruct (nth_error (threads (w_sys s)) th) as [[[] [[[]| | | | |]|]]|] eqn:T; try discriminate.
    destruct (String.eqb_spec k a) as [->|]; try discriminate. intros E. injection E as <-. eapply w_stored; eauto.
  - intros E. injection E as <-. constructor.
Qed.
Lemma exec_steps es : forall s0 s s', wsteps toyw toyw_targets s0 s -> exec_all s es = Some s' -> wsteps toyw toyw_targets s0 s'.
Proof.
  induction es as [|e es IH]; intros s0 s s' W E; cbn in E; [now injection E as <-|].
  destruct (exec s e) as [s1|] eqn:X; [|discriminate]. eapply IH; [|exact E]. econstructor 2; [exact W|]. eapply exec_step, X.
Qed.
Definition toyw_events : list ev :=
  [EWait "k2"; EWait "k1"; ERequest "k0"] ++ repeat (EAccess 2) 40 ++ [EFound "k0"; EFetched "k1"; EStore "k1"] ++ repeat (EAccess 3) 40 ++
  [EStored "k1"; EFetched "k2"; EStore "k2"] ++ repeat (EAccess 4) 40 ++ [EStored "k2"].
Definition toyw_end : option writing := exec_all (begin_writing toyw 2 toyw_before) toyw_events.
Definition toyw_final : writing := match toyw_end with Some s => s | None => begin_writing toyw 2 toyw_before end.
Lemma toyw_ends : toyw_end = Some toyw_final.
Proof. assert (is_some toyw_end = true) by (vm_compute; reflexivity). unfold toyw_final. destruct toyw_end; [reflexivity|discriminate]. Qed.
Lemma toyw_steps : wsteps toyw toyw_targets (begin_writing toyw 2 toyw_before) toyw_final.
Proof. exact (exec_steps _ _ _ _ (ws_none _ _ _) toyw_ends). Qed.
(** Afterwards somebody reads the entry "k2". *)
Definition toyw_after : list action := Start (OReadTarget "k2") :: steps 5 40.

(** Deciding the hypotheses. *)
Definition contractw (σ : store) (o : op) : bool :=
  let g := gen_at σ 0 in
  match o with
  | OStoreTree _ => false
  | OStoreResult a b => match cfg_parse_action toyw b with
                        | Some refs => forallb (fun p => availb g (fst p) (snd p)) refs | None => false end
  | OStoreTarget a b => match cfg_parse_target toyw b with
                        | Some (imp, refs) => (forallb (fun p => availb g (fst p) (snd p)) refs && forallb (fun j => String.eqb j a || presentb g STarget j) imp)%bool
                        | None => false end
  | _ => true
  end.
Lemma contractw_spec : forall σ o, contractw σ o = true -> contract toyw σ o.
Proof.
  intros σ [] H; try exact I; try discriminate H; cbn [contractw contract] in *.
  - destruct (cfg_parse_action toyw b) as [refs|]; [|discriminate H]. exists refs. split; [reflexivity|].
    intros t i Hi. rewrite forallb_forall in H. apply availb_spec. exact (H _ Hi).
  - destruct (cfg_parse_target toyw b) as [[imp refs]|]; try discriminate H. apply andb_prop in H as [H1 H2]. exists imp, refs.
    rewrite forallb_forall in H1, H2. split; [reflexivity|]. split.
    + intros t i Hi. apply availb_spec. exact (H1 _ Hi).
    + intros j Hj. specialize (H2 j Hj). apply orb_prop in H2 as [H2|H2]; [left; now apply String.eqb_eq|right; now apply presentb_spec].
Qed.
Fixpoint checkw (acts : list action) (Σ : system) : bool :=
  match acts with
  | [] => (length (log (disk Σ)) + 2 <=? 60)
  | a :: r =>
      (match a with
       | Start o => contractw (disk Σ) o
       | Step _ ok => ok
       | Collect _ _ _ _ _ oks => forallb (fun x => x) oks
       end && checkw r (perform toyw Σ a))%bool
  end.
Lemma checkw_spec : forall acts Σ, checkw acts Σ = true ->
  (forall a, In a acts -> no_io_error a) /\ contracts toyw acts Σ /\
  length (log (disk (perform_all toyw acts Σ))) + 2 <= 60.
Proof.
  induction acts as [|a acts IH]; intros Σ H; cbn [checkw] in H.
  - split; [intros a []|]. split; [exact I|]. now apply Nat.leb_le.
  - apply andb_true_iff in H. destruct H as [H1 H2]. destruct (IH _ H2) as (A & B & D).
    split; [|split; [|exact D]].
    + intros x [<-|Hx]; [|auto]. destruct a; cbn; auto.
      intros ok Hok. rewrite forallb_forall in H1. exact (H1 ok Hok).
    + split; [|exact B]. destruct a; auto. now apply contractw_spec.
Qed.
Lemma toyw_history : forall n acts, 0 < n -> checkw acts (fresh n) = true -> history toyw n acts.
Proof.
  intros n acts Hn H. destruct (checkw_spec _ _ H) as (A & B & D).
  split; [exact Hn|]. split; [exact A|]. split; [exact B|]. split; [apply toy_collision|exact D].
Qed.
