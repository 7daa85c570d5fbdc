(** The server reads from the messages what was written to them. *)
From Coq Require Import String Ascii List Bool NArith ZArith Lia.
From Verif Require Import Common.Strs Describe.Model Executor.Wire Rehash.Directory Rehash.DirectoryProofs Remote.Names Service.Messages.
Import ListNotations.
Local Open Scope string_scope.
Local Open Scope list_scope.

Lemma small_bytes n l : Forall (fun f : field => match snd f with VBytes b => small b | _ => True end) (bytes_fields n l) -> forall s, In s l -> small s.
Proof. intros Q s I. rewrite Forall_forall in Q. apply (Q (n, VBytes s)). unfold bytes_fields. apply in_map_iff. eauto. Qed.
Lemma all_ints_bytes n m l : all_ints n (bytes_fields m l) = [].
Proof. unfold bytes_fields. induction l as [|s l IH]; [reflexivity|exact IH]. Qed.
Ltac select := unfold get_message, get_string, get_int;
  repeat rewrite ?all_bytes_app, ?all_ints_app, ?all_bytes_fields, ?all_bytes_str, ?all_bytes_int, ?all_ints_str, ?all_ints_int, ?all_ints_bytes;
  cbn [all_bytes all_ints flat_map app N.eqb Pos.eqb String.concat]; rewrite ?app_nil_r.

Section Utf8.
Variable utf8 : string -> bool.
Notation good := (good_string utf8).

Lemma bazel_hash_wire t d : mkWire (bazel_hash t d) (d_size d) = ToBazel t d.
Proof. destruct t; unfold ToBazel, Prefix; cbn; [destruct (d_tree d); reflexivity|reflexivity]. Qed.

Lemma parse_wire_ok t d : utf8 (bazel_hash t d) = true -> (d_size d < big)%N -> small (digest_msg t d) ->
  parse_wire utf8 (digest_msg t d) = Some (ToBazel t d).
Proof.
  intros U B S. rewrite <- bazel_hash_wire. unfold parse_wire, digest_msg in *.
  rewrite parse_message_ok by (apply fields_ok; [apply Forall_app; split; [apply low_str; reflexivity|apply low_int; [reflexivity|exact B]]|exact S]).
  select. rewrite last_str. unfold checked. cbn [forallb]. rewrite U. cbn. f_equal. f_equal.
  destruct (d_size d =? 0)%N eqn:E; [apply N.eqb_eq in E; now rewrite E|]. cbn [last]. now apply N.mod_small.
Qed.

Lemma parse_pair_ok p : utf8 (fst p) = true -> utf8 (snd p) = true -> small (pair_msg p) -> parse_pair utf8 (pair_msg p) = Some p.
Proof.
  intros U V S. unfold parse_pair, pair_msg in *.
  rewrite parse_message_ok by (apply fields_ok; [apply Forall_app; split; apply low_str; reflexivity|exact S]).
  select. rewrite !last_str. unfold checked. cbn [forallb]. rewrite U, V. cbn. now destruct p.
Qed.
Notation good_pairs := (good_pairs utf8).
Lemma parse_pairs_ok l : good_pairs l -> (forall s, In s (map pair_msg l) -> small s) -> parse_all (parse_pair utf8) (map pair_msg l) = Some l.
Proof.
  intros G S. apply parse_all_ok. unfold Messages.good_pairs in G. rewrite Forall_forall in *. intros p I. destruct (G p I).
  apply parse_pair_ok; auto. apply S. now apply in_map.
Qed.
Lemma parse_platform_ok l : good_pairs l -> small (platform_msg l) -> parse_platform utf8 (platform_msg l) = Some l.
Proof.
  intros G S. unfold parse_platform, platform_msg in *.
  rewrite parse_message_ok by (apply fields_ok; [apply low_bytes; reflexivity|exact S]).
  select. apply parse_pairs_ok; [exact G|]. apply (small_bytes 1). now apply small_write.
Qed.

Notation good_command := (good_command utf8).

Lemma forallb_good l : Forall good l -> forallb utf8 l = true.
Proof. intros F. apply forallb_forall. now rewrite Forall_forall in F. Qed.

Lemma parse_command_ok q : good_command q -> small (command_text q) ->
  ParseCommand utf8 (command_text q) = Some (mkCommand (q_command q) (q_env q) (q_files q) (q_dirs q) (q_cwd q) (q_paths q)).
Proof.
  intros (G1 & G2 & G3 & G4 & G5 & G6 & G7) S. unfold ParseCommand, command_text in *.
  rewrite parse_message_ok.
  2:{ apply fields_ok; [|exact S]. repeat (apply Forall_app; split); try (apply low_bytes; reflexivity); [repeat constructor|apply low_str; reflexivity]. }
  apply small_write in S. apply Forall_app in S as [S1 S]. apply Forall_app in S as [S2 S]. apply Forall_app in S as [S3 S].
  apply Forall_app in S as [S4 S]. apply Forall_app in S as [S5 S]. inversion S5 as [|? ? S5' _]; subst.
  select. rewrite parse_pairs_ok by (auto; exact (small_bytes _ _ S2)). rewrite parse_platform_ok by assumption. rewrite last_str.
  unfold checked. rewrite !forallb_app. rewrite !forallb_good by assumption. cbn [forallb]. rewrite G6, (forallb_good _ G7). reflexivity.
Qed.

Lemma parse_duration_ok ms : small (duration_msg ms) -> exists fs, parse_message (duration_msg ms) = Some fs.
Proof.
  intros S. unfold duration_msg in *. cbv zeta in *.
  assert (B : forall z, (int64 z < big)%N).
  { intros z. unfold int64, big. pose proof (Z.mod_pos_bound z (2 ^ 64) eq_refl). change (2 ^ 64)%N with (Z.to_N (2 ^ 64)). apply Z2N.inj_lt; [lia|vm_compute; discriminate|lia]. }
  eexists. apply parse_message_ok. apply fields_ok; [|exact S]. apply Forall_app; split; apply low_int; try reflexivity; apply B.
Qed.

Lemma parse_action_ok t cmd q : utf8 (bazel_hash t cmd) = true -> (d_size cmd < big)%N -> utf8 (bazel_hash t (q_root q)) = true -> (d_size (q_root q) < big)%N ->
  good_pairs (q_props q) -> small (action_text t cmd q) ->
  ParseAction utf8 (action_text t cmd q) = Some (mkActionMsg (ToBazel t cmd) (ToBazel t (q_root q)) (q_skip_cache q)).
Proof.
  intros U1 B1 U2 B2 G S. unfold ParseAction, action_text in *.
  rewrite parse_message_ok.
  2:{ apply fields_ok; [|exact S]. apply Forall_app; split; [repeat constructor|]. apply Forall_app; split; [apply low_int; [reflexivity|destruct (q_skip_cache q); reflexivity]|repeat constructor]. }
  apply small_write in S. apply Forall_app in S as [S1 S]. apply Forall_app in S as [_ S].
  inversion S1 as [|? ? A1 S2]; subst. inversion S2 as [|? ? A2 S3]; subst. inversion S3 as [|? ? A3 _]; subst. inversion S as [|? ? A4 _]; subst. cbn [snd] in *.
  select. rewrite !parse_wire_ok by assumption. destruct (parse_duration_ok (q_timeout q) A3) as (fs & ->). rewrite parse_platform_ok by assumption.
  f_equal. f_equal. now destruct (q_skip_cache q).
Qed.
End Utf8.
