(** The encoding of messages loses nothing. *)
From Coq Require Import String Ascii List Bool NArith ZArith Lia.
From Verif Require Import Common.Strs Describe.Model Executor.Wire.
Import ListNotations.
Local Open Scope string_scope.

(** ** Varints *)

Lemma byte_app_inj a b s t : (a < 256)%N -> (b < 256)%N -> byte a ++ s = byte b ++ t -> a = b /\ s = t.
Proof.
  intros A B E. unfold byte in E. cbn [append] in E. injection E as E1 E2. split; [|exact E2].
  rewrite <- (N_ascii_embedding a A), <- (N_ascii_embedding b B). congruence.
Qed.

Lemma varint_unfold f n : (n < 2 ^ (N.of_nat f + 7))%N ->
  varint_go f n = if (n <? 128)%N then byte n else byte (128 + n mod 128) ++ varint_go (pred f) (n / 128).
Proof.
  intros L. destruct f as [|f]; [|reflexivity]. change (N.of_nat 0 + 7)%N with 7%N in L. change (2 ^ 7)%N with 128%N in L.
  cbn [varint_go]. apply N.ltb_lt in L. now rewrite L.
Qed.

Lemma quotient_small f n : (128 <= n)%N -> (n < 2 ^ (N.of_nat f + 7))%N -> (n / 128 < 2 ^ (N.of_nat (pred f) + 7))%N.
Proof.
  intros G L. destruct f as [|f].
  - change (2 ^ (N.of_nat 0 + 7))%N with 128%N in L. lia.
  - cbn [pred]. apply N.div_lt_upper_bound; [discriminate|]. eapply N.lt_le_trans; [exact L|].
    rewrite Nat2N.inj_succ. replace (N.succ (N.of_nat f) + 7)%N with (1 + (N.of_nat f + 7))%N by lia.
    rewrite N.pow_add_r. apply N.mul_le_mono_r. vm_compute. discriminate.
Qed.

Lemma varint_go_delim f : forall n f' n' s t, (n < 2 ^ (N.of_nat f + 7))%N -> (n' < 2 ^ (N.of_nat f' + 7))%N ->
  varint_go f n ++ s = varint_go f' n' ++ t -> n = n' /\ s = t.
Proof.
  induction f as [|f IH]; intros n f' n' s t L L' E.
  - rewrite (varint_unfold f' n' L') in E. cbn [varint_go] in E. change (2 ^ (N.of_nat 0 + 7))%N with 128%N in L.
    destruct (n' <? 128)%N eqn:B.
    + apply N.ltb_lt in B. apply byte_app_inj in E; [exact E|lia|lia].
    + rewrite app_str_assoc in E. apply N.ltb_ge in B. assert (n' mod 128 < 128)%N by (apply N.mod_lt; discriminate).
      apply byte_app_inj in E; [|lia|lia]. exfalso. destruct E as [E _]. clear -L E. revert E. generalize (n' mod 128)%N. lia.
  - rewrite (varint_unfold (S f) n L), (varint_unfold f' n' L') in E.
    assert (M : (n mod 128 < 128)%N) by (apply N.mod_lt; discriminate).
    assert (M' : (n' mod 128 < 128)%N) by (apply N.mod_lt; discriminate).
    destruct (n <? 128)%N eqn:A; destruct (n' <? 128)%N eqn:B;
      try apply N.ltb_lt in A; try apply N.ltb_lt in B; try apply N.ltb_ge in A; try apply N.ltb_ge in B;
      rewrite ?app_str_assoc in E; apply byte_app_inj in E; try (clear -A B M M'; lia); destruct E as [E1 E2];
      try (exfalso; revert A B E1; generalize (n mod 128)%N (n' mod 128)%N; clear; lia).
    + split; [exact E1|exact E2].
    + assert (n mod 128 = n' mod 128)%N by lia.
      apply IH in E2; [|exact (quotient_small (S f) n A L)|exact (quotient_small f' n' B L')].
      destruct E2 as [E2 E3]. split; [|exact E3].
      rewrite (N.div_mod n 128), (N.div_mod n' 128) by discriminate. congruence.
Qed.

Lemma varint_delim n n' s t : varint n ++ s = varint n' ++ t -> n = n' /\ s = t.
Proof.
  apply varint_go_delim.
  - eapply N.lt_le_trans; [apply (N.size_gt n)|]. apply N.pow_le_mono_r; [discriminate|]. 
    assert (N.of_nat (N.size_nat n) = N.size n) as -> by (destruct n as [|p]; [reflexivity|cbn; induction p; cbn; lia]). lia.
  - eapply N.lt_le_trans; [apply (N.size_gt n')|]. apply N.pow_le_mono_r; [discriminate|]. 
    assert (N.of_nat (N.size_nat n') = N.size n') as -> by (destruct n' as [|p]; [reflexivity|cbn; induction p; cbn; lia]). lia.
Qed.

(** ** Fields *)

Lemma app_same_length a : forall b s t, String.length a = String.length b -> a ++ s = b ++ t -> a = b /\ s = t.
Proof.
  induction a as [|c a IH]; intros [|c' b] s t L E; cbn in *; try discriminate; [auto|].
  injection L as L. injection E as -> E. destruct (IH _ _ _ L E) as [-> ->]. auto.
Qed.

Lemma write_field_delim f f' s t : write_field f ++ s = write_field f' ++ t -> f = f' /\ s = t.
Proof.
  destruct f as [n [v|b]]; destruct f' as [n' [v'|b']]; cbn [write_field]; rewrite !app_str_assoc; intros E;
    apply varint_delim in E; destruct E as [E1 E]; try lia; apply varint_delim in E; destruct E as [E2 E].
  - split; [|exact E]. f_equal; [lia|congruence].
  - assert (L : String.length b = String.length b') by (unfold strlen in E2; lia).
    destruct (app_same_length _ _ _ _ L E) as [-> ->]. split; [|reflexivity]. f_equal. lia.
Qed.

Lemma varint_nonempty n s : varint n ++ s <> "".
Proof. unfold varint. destruct (N.size_nat n); cbn; [discriminate|]. destruct (n <? 128)%N; discriminate. Qed.

Lemma write_field_nonempty f s : write_field f ++ s <> "".
Proof. destruct f as [n [v|b]]; cbn [write_field]; rewrite !app_str_assoc; apply varint_nonempty. Qed.

Lemma write_inj fs : forall fs', write fs = write fs' -> fs = fs'.
Proof.
  induction fs as [|f fs IH]; intros [|f' fs'] E; cbn [write fold_right] in E.
  - reflexivity.
  - symmetry in E. now apply write_field_nonempty in E.
  - now apply write_field_nonempty in E.
  - apply write_field_delim in E. destruct E as [-> E]. f_equal. apply IH. exact E.
Qed.

(** ** Getting the fields back *)

Definition with_number (n : N) (fs : list field) : list field := filter (fun f => N.eqb (fst f) n) fs.

Lemma with_number_app n a b : with_number n (a ++ b)%list = (with_number n a ++ with_number n b)%list.
Proof. unfold with_number. apply filter_app. Qed.

Lemma with_bytes n m l : with_number n (bytes_fields m l) = if N.eqb m n then bytes_fields m l else [].
Proof.
  unfold with_number, bytes_fields. induction l as [|s l IH]; cbn [map filter fst]; [now destruct (N.eqb m n)|].
  rewrite IH. destruct (N.eqb m n); reflexivity.
Qed.
Lemma with_str n m s : with_number n (str_field m s) = if N.eqb m n then str_field m s else [].
Proof. unfold with_number, str_field. destruct s; cbn; destruct (N.eqb m n); reflexivity. Qed.
Lemma with_int n m v : with_number n (int_field m v) = if N.eqb m n then int_field m v else [].
Proof. unfold with_number, int_field. destruct (v =? 0)%N; cbn; destruct (N.eqb m n); reflexivity. Qed.
Lemma with_one n f : with_number n [f] = if N.eqb (fst f) n then [f] else [].
Proof. reflexivity. Qed.
Lemma with_nil n : with_number n [] = [].
Proof. reflexivity. Qed.

Lemma str_field_inj n s s' : str_field n s = str_field n s' -> s = s'.
Proof. destruct s, s'; cbn; congruence. Qed.
Lemma int_field_inj n v v' : int_field n v = int_field n v' -> v = v'.
Proof.
  unfold int_field. destruct (v =? 0)%N eqn:A; destruct (v' =? 0)%N eqn:B; try discriminate; intros E.
  - apply N.eqb_eq in A, B. congruence.
  - congruence.
Qed.
Lemma bytes_fields_inj n l : forall l', bytes_fields n l = bytes_fields n l' -> l = l'.
Proof.
  unfold bytes_fields. induction l as [|a l IH]; intros [|b l'] E; cbn in E; try discriminate; [reflexivity|].
  injection E as -> E. f_equal. now apply IH.
Qed.

Ltac field_eq n E := let F := fresh "F" in
  pose proof (f_equal (with_number n) E) as F;
  rewrite ?with_number_app, ?with_bytes, ?with_str, ?with_int, ?with_one, ?with_nil in F;
  cbn [N.eqb Pos.eqb fst app] in F; rewrite ?app_nil_r in F.

(** ** Messages *)

Lemma pair_msg_inj p p' : pair_msg p = pair_msg p' -> p = p'.
Proof.
  intros E. apply write_inj in E. field_eq 1%N E. field_eq 2%N E.
  apply str_field_inj in F, F0. destruct p, p'. cbn [fst snd] in *. congruence.
Qed.

Lemma map_inj {A B} (f : A -> B) (I : forall x y, f x = f y -> x = y) l : forall l', map f l = map f l' -> l = l'.
Proof.
  induction l as [|a l IH]; intros [|b l'] E; cbn in E; try discriminate; [reflexivity|].
  injection E as E1 E2. f_equal; auto.
Qed.

Lemma platform_msg_inj l l' : platform_msg l = platform_msg l' -> l = l'.
Proof.
  intros E. apply write_inj in E. apply bytes_fields_inj in E. exact (map_inj _ pair_msg_inj _ _ E).
Qed.

Lemma digest_msg_inj t d d' : (t = PlainSHA256 -> d_tree d = d_tree d') -> digest_msg t d = digest_msg t d' -> d = d'.
Proof.
  intros W E. apply write_inj in E. field_eq 1%N E. field_eq 2%N E. apply str_field_inj in F. apply int_field_inj in F0.
  destruct d as [h b s], d' as [h' b' s']. cbn [d_hash d_tree d_size] in *. subst s'.
  destruct t; cbn in F; [|rewrite (W eq_refl); congruence].
  destruct b, b'; cbn in F; try discriminate; injection F as ->; reflexivity.
Qed.

Lemma int64_inj a b : (- 2 ^ 63 <= a < 2 ^ 63)%Z -> (- 2 ^ 63 <= b < 2 ^ 63)%Z -> int64 a = int64 b -> a = b.
Proof.
  intros A B E. unfold int64 in E. apply Z2N.inj in E; [|apply Z.mod_pos_bound; reflexivity..].
  assert (exists k, a = b + k * 2 ^ 64)%Z as [k K].
  { exists (a / 2 ^ 64 - b / 2 ^ 64)%Z. rewrite (Z.div_mod a (2 ^ 64)) at 1 by discriminate.
    rewrite (Z.div_mod b (2 ^ 64)) at 1 by discriminate. rewrite E. ring. }
  change (2 ^ 64)%Z with (2 * 2 ^ 63)%Z in K. nia.
Qed.

(** A number of milliseconds kept in 64 bits. *)
Definition int64_range (z : Z) : Prop := (- 2 ^ 63 <= z < 2 ^ 63)%Z.

Lemma duration_msg_inj a b : int64_range a -> int64_range b -> duration_msg a = duration_msg b -> a = b.
Proof.
  unfold int64_range. intros A B E. apply write_inj in E. field_eq 1%N E. field_eq 2%N E. apply int_field_inj in F, F0.
  set (qa := Z.quot a 1000) in *. set (qb := Z.quot b 1000) in *.
  assert (Ra : (a = 1000 * qa + Z.rem a 1000)%Z) by (unfold qa; apply Z.quot_rem; discriminate).
  assert (Rb : (b = 1000 * qb + Z.rem b 1000)%Z) by (unfold qb; apply Z.quot_rem; discriminate).
  assert (Ba : (-1000 < Z.rem a 1000 < 1000)%Z) by (pose proof (Z.rem_bound_abs a 1000 ltac:(discriminate)); lia).
  assert (Bb : (-1000 < Z.rem b 1000 < 1000)%Z) by (pose proof (Z.rem_bound_abs b 1000 ltac:(discriminate)); lia).
  apply int64_inj in F; [|lia..].
  apply int64_inj in F0; [|change (2 ^ 63)%Z with 9223372036854775808%Z; lia..]. lia.
Qed.

Lemma command_text_inj q q' : command_text q = command_text q' ->
  q_command q = q_command q' /\ q_env q = q_env q' /\ q_files q = q_files q' /\ q_dirs q = q_dirs q' /\
  q_props q = q_props q' /\ q_cwd q = q_cwd q' /\ q_paths q = q_paths q'.
Proof.
  intros E. apply write_inj in E.
  field_eq 1%N E. field_eq 2%N E. field_eq 3%N E. field_eq 4%N E. field_eq 5%N E. field_eq 6%N E. field_eq 7%N E.
  apply bytes_fields_inj in F, F0, F1, F2, F5. apply str_field_inj in F4. injection F3 as F3.
  apply platform_msg_inj in F3. apply (map_inj _ pair_msg_inj) in F0. auto 10.
Qed.

Lemma action_text_inj t c c' q q' : (t = PlainSHA256 -> d_tree (q_root q) = d_tree (q_root q')) ->
  d_tree c = d_tree c' -> int64_range (q_timeout q) -> int64_range (q_timeout q') ->
  action_text t c q = action_text t c' q' ->
  c = c' /\ q_root q = q_root q' /\ q_timeout q = q_timeout q' /\ q_skip_cache q = q_skip_cache q' /\ q_props q = q_props q'.
Proof.
  intros W W' R R' E. apply write_inj in E.
  change (?a :: ?b :: ?c :: ?l) with ([a] ++ [b] ++ [c] ++ l)%list in E.
  field_eq 1%N E. field_eq 2%N E. field_eq 6%N E. field_eq 7%N E. field_eq 10%N E.
  injection F as F. injection F0 as F0. injection F1 as F1. injection F3 as F3. apply int_field_inj in F2.
  apply digest_msg_inj in F; [|auto]. apply digest_msg_inj in F0; [|exact W]. apply duration_msg_inj in F1; [|assumption..].
  apply platform_msg_inj in F3. repeat split; try assumption. destruct (q_skip_cache q), (q_skip_cache q'); congruence.
Qed.
