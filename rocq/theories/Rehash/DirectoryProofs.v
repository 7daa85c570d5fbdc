(** Reading a directory message gives what was written. *)
From Coq Require Import String Ascii List Bool NArith ZArith Lia.
From Verif Require Import Common.Strs Describe.Model Executor.Wire Executor.WireProofs Rehash.Directory.
Import ListNotations.
Local Open Scope string_scope.
Local Open Scope list_scope.

Definition big : N := 2 ^ 64.

Lemma read_byte n s m : (n < 256)%N ->
  read_varint m (byte n ++ s) =
    if (n <? 128)%N then Some (n, s)
    else match m with
         | O => None
         | S m' => match read_varint m' s with Some (v, r') => Some ((n - 128) + 128 * v, r')%N | None => None end
         end.
Proof. intros L. unfold byte. cbn [append]. destruct m; cbn [read_varint]; now rewrite N_ascii_embedding by exact L. Qed.

Lemma read_varint_go f : forall n m s, (n < 2 ^ (N.of_nat f + 7))%N -> (n < 2 ^ (7 * (N.of_nat m + 1)))%N ->
  read_varint m (varint_go f n ++ s) = Some (n, s).
Proof.
  induction f as [|f IH]; intros n m s L B; rewrite varint_unfold by exact L; destruct (n <? 128)%N eqn:E.
  - apply N.ltb_lt in E. rewrite read_byte by lia. apply N.ltb_lt in E. now rewrite E.
  - exfalso. apply N.ltb_ge in E. change (2 ^ (N.of_nat 0 + 7))%N with 128%N in L. lia.
  - apply N.ltb_lt in E. rewrite read_byte by lia. apply N.ltb_lt in E. now rewrite E.
  - apply N.ltb_ge in E. assert (M : (n mod 128 < 128)%N) by (apply N.mod_lt; discriminate).
    rewrite app_str_assoc, read_byte by (revert M; generalize (n mod 128)%N; intros; lia).
    replace (128 + n mod 128 <? 128)%N with false by (symmetry; apply N.ltb_ge; revert M; generalize (n mod 128)%N; intros; lia).
    destruct m as [|m].
    { exfalso. change (2 ^ (7 * (N.of_nat 0 + 1)))%N with 128%N in B. lia. }
    rewrite IH.
    + f_equal. f_equal. rewrite (N.div_mod n 128) at 3 by discriminate. generalize (n mod 128)%N (n / 128)%N. intros. lia.
    + apply (quotient_small (S f)); assumption.
    + apply N.div_lt_upper_bound; [discriminate|]. eapply N.lt_le_trans; [exact B|].
      rewrite Nat2N.inj_succ. replace (7 * (N.succ (N.of_nat m) + 1))%N with (7 + 7 * (N.of_nat m + 1))%N by lia.
      rewrite N.pow_add_r. apply N.mul_le_mono_r. vm_compute. discriminate.
Qed.
Lemma read_varint_ok n s : (n < big)%N -> read_varint 9 (varint n ++ s) = Some (n, s).
Proof.
  intros B. apply read_varint_go.
  - eapply N.lt_le_trans; [apply (N.size_gt n)|]. apply N.pow_le_mono_r; [discriminate|].
    assert (N.of_nat (N.size_nat n) = N.size n) as -> by (destruct n as [|p]; [reflexivity|cbn; induction p; cbn; lia]). lia.
  - eapply N.lt_trans; [exact B|]. vm_compute. reflexivity.
Qed.

Lemma take_bytes_ok a : forall s, take_bytes (String.length a) (a ++ s) = Some (a, s).
Proof. induction a as [|c a IH]; intros s; [reflexivity|]. cbn. now rewrite IH. Qed.

Lemma strlen_app a b : strlen (a ++ b) = (strlen a + strlen b)%N.
Proof. unfold strlen. rewrite app_str_length. lia. Qed.

Definition field_ok (f : field) : Prop :=
  (fst f < 2 ^ 61)%N /\ match snd f with VInt v => (v < big)%N | VBytes b => (strlen b < big)%N end.

Lemma read_field_ok f s : field_ok f -> read_field (write_field f ++ s) = Some (f, s).
Proof.
  intros [K V]. destruct f as [n [v|b]]; cbn [fst snd] in *; unfold write_field, read_field; rewrite ?app_str_assoc.
  - rewrite read_varint_ok by (unfold big; change (2 ^ 64)%N with (8 * 2 ^ 61)%N; lia).
    replace (8 * n mod 8)%N with 0%N by (symmetry; rewrite N.mul_comm; apply N.mod_mul; discriminate).
    cbn [N.eqb]. rewrite read_varint_ok by exact V.
    replace (8 * n / 8)%N with n by (symmetry; rewrite N.mul_comm; apply N.div_mul; discriminate). reflexivity.
  - rewrite read_varint_ok by (unfold big; change (2 ^ 64)%N with (8 * 2 ^ 61)%N; lia).
    replace ((8 * n + 2) mod 8)%N with 2%N by (rewrite N.add_comm, N.mul_comm, N.mod_add by discriminate; reflexivity).
    cbn [N.eqb Pos.eqb]. rewrite read_varint_ok by exact V.
    replace (strlen (b ++ s) <? strlen b)%N with false by (symmetry; apply N.ltb_ge; rewrite strlen_app; lia).
    unfold strlen at 1. rewrite Nat2N.id, take_bytes_ok.
    replace ((8 * n + 2) / 8)%N with n by (rewrite N.add_comm, N.mul_comm, N.div_add by discriminate; reflexivity). reflexivity.
Qed.

Lemma write_field_pos f : 0 < String.length (write_field f).
Proof. destruct (write_field f) eqn:E; [|cbn; lia]. exfalso. apply (write_field_nonempty f ""). now rewrite E. Qed.

Lemma read_fields_ok fs : Forall field_ok fs -> forall fuel, String.length (write fs) < fuel -> read_fields fuel (write fs) = Some fs.
Proof.
  induction 1 as [|f fs F _ IH]; intros fuel L.
  - destruct fuel; reflexivity.
  - cbn [write fold_right] in *. fold (write fs) in *. rewrite app_str_length in L. pose proof (write_field_pos f) as P.
    destruct fuel as [|fuel]; [lia|]. cbn [read_fields]. destruct (write_field f ++ write fs)%string eqn:E.
    { exfalso. now apply (write_field_nonempty f (write fs)). }
    rewrite <- E, read_field_ok by exact F. rewrite IH by lia. reflexivity.
Qed.
Lemma parse_message_ok fs : Forall field_ok fs -> parse_message (write fs) = Some fs.
Proof. intros F. apply read_fields_ok; [exact F|lia]. Qed.

(** Selecting fields. *)
Lemma all_bytes_app n a b : all_bytes n (a ++ b) = all_bytes n a ++ all_bytes n b.
Proof. apply flat_map_app. Qed.
Lemma all_ints_app n a b : all_ints n (a ++ b) = all_ints n a ++ all_ints n b.
Proof. apply flat_map_app. Qed.
Lemma all_bytes_fields n m l : all_bytes n (bytes_fields m l) = if (m =? n)%N then l else [].
Proof. unfold bytes_fields. induction l as [|s l IH]; cbn; [now destruct (m =? n)%N|]. unfold all_bytes in IH. rewrite IH. now destruct (m =? n)%N. Qed.
Lemma all_bytes_str n m s : all_bytes n (str_field m s) = if (m =? n)%N then match s with "" => [] | _ => [s] end else [].
Proof. destruct s; cbn; destruct (m =? n)%N; reflexivity. Qed.
Lemma all_bytes_int n m v : all_bytes n (int_field m v) = [].
Proof. unfold int_field. now destruct (v =? 0)%N. Qed.
Lemma all_ints_str n m s : all_ints n (str_field m s) = [].
Proof. now destruct s. Qed.
Lemma all_ints_int n m v : all_ints n (int_field m v) = if (m =? n)%N then if (v =? 0)%N then [] else [v] else [].
Proof. unfold int_field. destruct (v =? 0)%N; cbn; destruct (m =? n)%N; reflexivity. Qed.

(** Sizes of parts. *)
Definition small (s : string) : Prop := (strlen s < 2 ^ 31)%N.
Lemma write_app a b : write (a ++ b)%list = (write a ++ write b)%string.
Proof. unfold write. rewrite fold_right_app. induction a as [|f a IH]; [reflexivity|]. cbn. now rewrite IH, app_str_assoc. Qed.
Lemma small_app a b : small (a ++ b)%string -> small a /\ small b.
Proof. unfold small. rewrite strlen_app. lia. Qed.
Lemma small_write fs : small (write fs) -> Forall (fun f => match snd f with VBytes b => small b | _ => True end) fs.
Proof.
  induction fs as [|f fs IH]; intros S; constructor.
  - apply small_app in S as [S _]. destruct f as [n [v|b]]; [exact Logic.I|]. cbn [write_field snd] in *.
    apply small_app in S as [_ S]. now apply small_app in S as [_ S].
  - apply IH. now apply small_app in S.
Qed.
Lemma small_big s : small s -> (strlen s < big)%N.
Proof. unfold small, big. intros S. eapply N.lt_trans; [exact S|]. vm_compute. reflexivity. Qed.

Definition low (f : field) : Prop := (fst f < 16)%N /\ match snd f with VInt v => (v < big)%N | _ => True end.
Lemma fields_ok fs : Forall low fs -> small (write fs) -> Forall field_ok fs.
Proof.
  intros L S. apply small_write in S. rewrite Forall_forall in *. intros f F. specialize (L f F). specialize (S f F).
  destruct L as [L V]. split; [eapply N.lt_trans; [exact L|vm_compute; reflexivity]|]. destruct (snd f); [exact V|now apply small_big].
Qed.
Lemma low_str n s : (n < 16)%N -> Forall low (str_field n s).
Proof. intros. destruct s; repeat constructor; assumption. Qed.
Lemma low_int n v : (n < 16)%N -> (v < big)%N -> Forall low (int_field n v).
Proof. intros. unfold int_field. destruct (v =? 0)%N; repeat constructor; assumption. Qed.
Lemma low_bytes n l : (n < 16)%N -> Forall low (bytes_fields n l).
Proof. intros. unfold bytes_fields. apply Forall_forall. intros f F. apply in_map_iff in F as (s & <- & _). split; [assumption|exact Logic.I]. Qed.

Section Utf8.
Variable utf8 : string -> bool.
Definition good_digest (d : digest) : Prop := d_tree d = false /\ utf8 (d_hash d) = true /\ (d_size d < big)%N.

Lemma last_str s : last match s with "" => [] | _ => [s] end "" = s.
Proof. now destruct s. Qed.

Lemma parse_digest_ok d : good_digest d -> small (digest_msg PlainSHA256 d) -> parse_digest utf8 (digest_msg PlainSHA256 d) = Some d.
Proof.
  intros (T & U & B) S. unfold parse_digest, digest_msg in *. cbn [bazel_hash] in *.
  rewrite parse_message_ok by (apply fields_ok; [apply Forall_app; split; [apply low_str; reflexivity|apply low_int; [reflexivity|exact B]]|exact S]).
  unfold get_string, get_int. rewrite all_bytes_app, all_ints_app, all_bytes_str, all_bytes_int, all_ints_str, all_ints_int.
  change (1 =? 1)%N with true. change (2 =? 2)%N with true. cbn [app]. rewrite app_nil_r, last_str.
  unfold checked. cbn [forallb]. rewrite U. cbn. destruct d as [h t z]. cbn in *. subst t. f_equal. f_equal.
  destruct (z =? 0)%N eqn:E; [apply N.eqb_eq in E; now subst|reflexivity].
Qed.

Lemma concat_one s : String.concat "" [s] = s.
Proof. reflexivity. Qed.

Lemma parse_file_ok n x d : utf8 n = true -> good_digest d -> small (file_msg (n, (x, d))) -> parse_file utf8 (file_msg (n, (x, d))) = Some (n, (x, d)).
Proof.
  intros U G S. unfold parse_file, file_msg in *. cbn [fst snd] in *.
  assert (F : Forall field_ok (str_field 1 n ++ [(2%N, VBytes (digest_msg PlainSHA256 d))] ++ int_field 4 (if x then 1 else 0))).
  { apply fields_ok; [|exact S]. apply Forall_app; split; [apply low_str; reflexivity|]. apply Forall_app; split; [repeat constructor|apply low_int; [reflexivity|destruct x; reflexivity]]. }
  rewrite parse_message_ok by exact F. apply small_write in S.
  assert (Sd : small (digest_msg PlainSHA256 d)).
  { rewrite Forall_forall in S. apply (S (2%N, VBytes (digest_msg PlainSHA256 d))). apply in_or_app. right. now left. }
  unfold get_message, get_string, get_int. rewrite !all_bytes_app, !all_ints_app, !all_bytes_str, !all_bytes_int, !all_ints_str, !all_ints_int.
  change (1 =? 2)%N with false. change (1 =? 1)%N with true. change (4 =? 4)%N with true.
  cbn [all_bytes all_ints flat_map app N.eqb Pos.eqb]. rewrite concat_one, parse_digest_ok by assumption.
  unfold checked. rewrite app_nil_r, last_str. cbn [forallb]. rewrite U. cbn. now destruct x.
Qed.
Lemma parse_dir_ok n d : utf8 n = true -> good_digest d -> small (dir_msg (n, d)) -> parse_dir utf8 (dir_msg (n, d)) = Some (n, d).
Proof.
  intros U G S. unfold parse_dir, dir_msg in *. cbn [fst snd] in *.
  assert (F : Forall field_ok (str_field 1 n ++ [(2%N, VBytes (digest_msg PlainSHA256 d))])).
  { apply fields_ok; [|exact S]. apply Forall_app; split; [apply low_str; reflexivity|repeat constructor]. }
  rewrite parse_message_ok by exact F. apply small_write in S.
  assert (Sd : small (digest_msg PlainSHA256 d)).
  { rewrite Forall_forall in S. apply (S (2%N, VBytes (digest_msg PlainSHA256 d))). apply in_or_app. right. now left. }
  unfold get_message, get_string. rewrite !all_bytes_app, !all_bytes_str.
  change (1 =? 2)%N with false. change (1 =? 1)%N with true.
  cbn [all_bytes flat_map app N.eqb Pos.eqb]. rewrite concat_one, parse_digest_ok by assumption.
  unfold checked. rewrite app_nil_r, last_str. cbn [forallb]. now rewrite U.
Qed.
Lemma parse_link_ok n t : utf8 n = true -> utf8 t = true -> small (link_msg (n, t)) -> parse_link utf8 (link_msg (n, t)) = Some (n, t).
Proof.
  intros U G S. unfold parse_link, link_msg in *. cbn [fst snd] in *.
  rewrite parse_message_ok by (apply fields_ok; [apply Forall_app; split; apply low_str; reflexivity|exact S]).
  unfold get_string. rewrite !all_bytes_app, !all_bytes_str.
  change (1 =? 2)%N with false. change (1 =? 1)%N with true. change (2 =? 2)%N with true. change (2 =? 1)%N with false. cbn [app].
  rewrite app_nil_r, !last_str. unfold checked. cbn [forallb]. now rewrite U, G.
Qed.

Lemma parse_all_ok {A} (f : string -> option A) (w : A -> string) l : Forall (fun a => f (w a) = Some a) l -> parse_all f (map w l) = Some l.
Proof. induction 1 as [|a l E _ IH]; [reflexivity|]. cbn. now rewrite E, IH. Qed.

Definition good_directory (d : directory) : Prop :=
  Forall (fun f => utf8 (fst f) = true /\ good_digest (snd (snd f))) (dm_files d) /\
  Forall (fun f => utf8 (fst f) = true /\ good_digest (snd f)) (dm_dirs d) /\
  Forall (fun f => utf8 (fst f) = true /\ utf8 (snd f) = true) (dm_links d) /\
  small (directory_text d).

Lemma parse_directory_ok d : good_directory d -> ParseDirectory utf8 (directory_text d) = Some d.
Proof.
  intros (F & D & L & S). unfold ParseDirectory, directory_text in *.
  rewrite parse_message_ok by (apply fields_ok; [apply Forall_app; split; [apply low_bytes; reflexivity|]; apply Forall_app; split; apply low_bytes; reflexivity|exact S]).
  apply small_write in S. apply Forall_app in S as [S1 S]. apply Forall_app in S as [S2 S3].
  assert (P : forall n l, Forall (fun f : field => match snd f with VBytes b => small b | _ => True end) (bytes_fields n l) -> forall s, In s l -> small s).
  { intros n l Q s I. rewrite Forall_forall in Q. apply (Q (n, VBytes s)). unfold bytes_fields. apply in_map_iff. eauto. }
  rewrite !all_bytes_app, !all_bytes_fields. change (1 =? 1)%N with true. change (2 =? 1)%N with false. change (3 =? 1)%N with false.
  change (1 =? 2)%N with false. change (2 =? 2)%N with true. change (3 =? 2)%N with false. change (1 =? 3)%N with false. change (2 =? 3)%N with false.
  change (3 =? 3)%N with true. cbn [app]. rewrite !app_nil_r.
  rewrite !parse_all_ok; [now destruct d| | |].
  - rewrite Forall_forall in L. apply Forall_forall. intros [n t] I. destruct (L _ I). apply parse_link_ok; auto. apply (P _ _ S3). now apply in_map.
  - rewrite Forall_forall in D. apply Forall_forall. intros [n t] I. destruct (D _ I). apply parse_dir_ok; auto. apply (P _ _ S2). now apply in_map.
  - rewrite Forall_forall in F. apply Forall_forall. intros [n [x t]] I. destruct (F _ I). apply parse_file_ok; auto. apply (P _ _ S1). now apply in_map.
Qed.
End Utf8.
