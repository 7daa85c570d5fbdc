(** Single operations of the expression language. *)
From Coq Require Import String Ascii List Bool NArith ZArith Arith SpecFloat Lia Sorted.
From Verif Require Import Common.Strs LinkedMap.Model LinkedMap.Spec LinkedMap.Proofs Path.Model.
From Verif Require Import Expr.Json Expr.Model Expr.Eval Expr.Spec Expr.OpsSpec.
Import ListNotations.
Local Open Scope string_scope.
Local Open Scope list_scope.
Local Infix "^^" := String.append (at level 60, right associativity).

(** ** C07 *)
Definition prune_map (c : env) (xs : list string) (acc : list (string * expr)) :=
  fold_left (fun m k => aemplace k (match Find c k with Some v => v | None => ENone end) m) xs acc.

Lemma prune_sorted c xs : forall acc, sorted_keys acc -> sorted_keys (prune_map c xs acc).
Proof. induction xs as [|x r IH]; cbn; intros acc Ha; auto. apply IH. now apply aemplace_sorted. Qed.

Lemma prune_map_lookup c xs : forall acc k, sorted_keys acc ->
  alookup k (prune_map c xs acc) =
  match alookup k acc with Some v => Some v | None => if in_dec string_dec k xs then Some (env_get c k) else None end.
Proof.
  induction xs as [|x r IH]; intros acc k Ha; cbn [prune_map fold_left].
  - destruct (alookup k acc); auto.
  - fold (prune_map c r (aemplace x (match Find c x with Some v => v | None => ENone end) acc)).
    rewrite IH by now apply aemplace_sorted. rewrite aemplace_lookup by auto.
    destruct (alookup k acc) eqn:Ek.
    + destruct (String.eqb_spec k x); subst; rewrite ?Ek; auto.
    + destruct (String.eqb_spec k x) as [->|Hne]; rewrite ?Ek.
      * destruct (in_dec string_dec x (x :: r)) as [_|n]; [reflexivity|destruct n; now left].
      * destruct (in_dec string_dec k r) as [i|n], (in_dec string_dec k (x :: r)) as [i'|n']; auto.
        -- destruct n'. now right.
        -- destruct i'; [congruence|contradiction].
Qed.

Lemma prune_lookup c xs k :
  Find (Prune c xs) k = if in_dec string_dec k xs then Some (env_get c k) else None.
Proof.
  unfold Prune. cbn [Find IsNotNull]. fold (prune_map c xs []). rewrite prune_map_lookup by constructor.
  cbn. now destruct (in_dec string_dec k xs).
Qed.

Lemma prune_std c xs : std_maps (Prune c xs).
Proof. unfold Prune, std_maps. cbn. constructor; [|constructor]. apply prune_sorted. constructor. Qed.

Lemma prune_prune c xs ys : (forall y, In y ys -> In y xs) -> Prune (Prune c xs) ys = Prune c ys.
Proof.
  intros Hi. unfold Prune at 1 3. f_equal. generalize (@nil (string * expr)).
  induction ys as [|y r IH]; intros acc; cbn [fold_left]; auto.
  rewrite IH by (intros; apply Hi; now right). f_equal. f_equal. rewrite prune_lookup.
  destruct (in_dec string_dec y xs) as [_|n]; [reflexivity|]. destruct n. apply Hi. now left.
Qed.

Lemma update1_lookup c k v x : Find (Update1 c k v) x = if String.eqb x k then Some v else Find c x.
Proof. unfold Update1. cbn. destruct (String.eqb x k); auto. destruct c; auto. Qed.
Lemma update_map_lookup c m x : Find (UpdateMap c m) x = match alookup x m with Some v => Some v | None => Find c x end.
Proof.
  unfold UpdateMap. destruct m as [|p r]; [reflexivity|]. cbn [Find IsNotNull].
  destruct (alookup x (p :: r)); auto. destruct c; auto.
Qed.

(** ** C08 *)
Section Nub.
Variable ndump : num -> string.
Variable H : string -> string.
Local Notation eqb := (expr_eqb ndump H).

Lemma eqb_refl a : eqb a a = true. Proof. apply String.eqb_refl. Qed.
Lemma eqb_sym a b : eqb a b = eqb b a. Proof. apply String.eqb_sym. Qed.
Lemma eqb_trans a b c : eqb a b = true -> eqb b c = true -> eqb a c = true.
Proof. unfold expr_eqb. rewrite !String.eqb_eq. congruence. Qed.

(** Positions kept by the loop after the prefix [pre] has been processed. *)
Fixpoint kept (pre l : list expr) : list nat :=
  match l with
  | [] => []
  | x :: r => if existsb (eqb x) pre then kept (pre ++ [x]) r else List.length pre :: kept (pre ++ [x]) r
  end.

Lemma existsb_seen x pre seen : (forall y, existsb (eqb y) seen = existsb (eqb y) pre) ->
  forall y, existsb (eqb y) (if existsb (eqb x) seen then seen else x :: seen) = existsb (eqb y) (pre ++ [x]).
Proof.
  intros Hs y. rewrite existsb_app. cbn. rewrite orb_false_r. destruct (existsb (eqb x) seen) eqn:E.
  - rewrite Hs. destruct (eqb y x) eqn:Eyx; [|now rewrite orb_false_r]. rewrite orb_true_r.
    rewrite Hs in E. apply existsb_exists in E as (z & Hz & Exz). apply existsb_exists. exists z. split; auto.
    eapply eqb_trans; eauto.
  - cbn. rewrite Hs. apply orb_comm.
Qed.

Lemma nub_loop_kept l : forall pre seen out,
  (forall y, existsb (eqb y) seen = existsb (eqb y) pre) ->
  map Some (nub_loop ndump H l seen out) = map Some (rev out) ++ map (nth_error (pre ++ l)) (kept pre l).
Proof.
  induction l as [|x r IH]; intros pre seen out Hs; cbn [nub_loop kept].
  - cbn. now rewrite app_nil_r.
  - pose proof (existsb_seen x pre seen Hs) as Hs'. rewrite <- (Hs x). destruct (existsb (eqb x) seen) eqn:E.
    + rewrite (IH (pre ++ [x])) by exact Hs'. now rewrite <- app_assoc.
    + rewrite (IH (pre ++ [x])) by exact Hs'. cbn [rev map]. rewrite map_app. cbn [map].
      rewrite <- !app_assoc. cbn. f_equal. f_equal.
      rewrite nth_error_app2, Nat.sub_diag by lia. reflexivity.
Qed.

Lemma kept_ge pre l p : In p (kept pre l) -> List.length pre <= p.
Proof.
  revert pre. induction l as [|x r IH]; intros pre; cbn; [easy|]. destruct (existsb (eqb x) pre).
  - intros Hi. apply IH in Hi. rewrite app_length in Hi. cbn in Hi. lia.
  - intros [<-|Hi]; auto. apply IH in Hi. rewrite app_length in Hi. cbn in Hi. lia.
Qed.

Lemma kept_sorted l : forall pre, StronglySorted lt (kept pre l).
Proof.
  induction l as [|x r IH]; intros pre; cbn; [constructor|]. destruct (existsb (eqb x) pre); auto.
  constructor; auto. apply Forall_forall. intros p Hp. apply kept_ge in Hp. rewrite app_length in Hp. cbn in Hp. lia.
Qed.

Lemma sorted_nth_lt ps : StronglySorted lt ps ->
  forall i j a b, i < j -> nth_error ps i = Some a -> nth_error ps j = Some b -> a < b.
Proof.
  induction 1 as [|x ps Hs IH Hf]; intros i j a b Hij Ha Hb. { destruct i; discriminate. }
  destruct j; [lia|]. destruct i; cbn in *.
  - inversion Ha; subst. apply nth_error_In in Hb. eapply Forall_forall in Hf; eauto.
  - eapply IH; [|exact Ha|exact Hb]. lia.
Qed.

Local Notation fresh_left := (first_occurrence eqb).

Lemma kept_spec l : forall pre p, In p (kept pre l) <->
  List.length pre <= p < List.length (pre ++ l) /\ fresh_left (pre ++ l) p.
Proof.
  induction l as [|x r IH]; intros pre p; cbn [kept].
  - rewrite app_nil_r. cbn. lia.
  - replace (pre ++ x :: r) with ((pre ++ [x]) ++ r) by now rewrite <- app_assoc.
    assert (Hx : nth_error ((pre ++ [x]) ++ r) (List.length pre) = Some x).
    { rewrite <- app_assoc. rewrite nth_error_app2, Nat.sub_diag by lia. reflexivity. }
    assert (Hpre : forall q, q < List.length pre -> nth_error ((pre ++ [x]) ++ r) q = nth_error pre q).
    { intros q Hq. rewrite <- app_assoc. now rewrite nth_error_app1. }
    destruct (existsb (eqb x) pre) eqn:E.
    + rewrite IH. rewrite (app_length pre [x]). cbn [List.length]. split.
      * intros [Hl Hf]. split; auto. lia.
      * intros [Hl Hf]. split; auto. assert (p <> List.length pre); [|lia]. intros ->.
        apply existsb_exists in E as (y & Hy & Exy). apply In_nth_error in Hy as (q & Hq).
        assert (q < List.length pre) by (apply nth_error_Some; congruence).
        assert (eqb x y = false); [|congruence]. eapply (Hf q); eauto. now rewrite Hpre.
    + cbn [In]. rewrite IH. rewrite (app_length pre [x]). cbn [List.length]. split.
      * intros [<-|[Hl Hf]]; [|split; auto; lia]. split. { rewrite !app_length. cbn. lia. }
        intros q a b Hq Ha Hb. rewrite Hx in Hb. inversion Hb; subst b.
        rewrite Hpre in Ha by auto. apply nth_error_In in Ha.
        destruct (eqb x a) eqn:Exa; auto. assert (existsb (eqb x) pre = true); [|congruence].
        apply existsb_exists. eauto.
      * intros [Hl Hf]. destruct (Nat.eq_dec (List.length pre) p) as [->|Hne]; [now left|right]. split; auto. lia.
Qed.

Lemma nub_left_spec l : forallb IsCacheable l = true ->
  exists r, NubLeft ndump H (EList l) = Ok (EList r) /\ subsequence_at (fresh_left l) l r.
Proof.
  intros Hc. unfold NubLeft. cbn [as_list bind IsCacheable]. rewrite Hc. eexists. split; [reflexivity|].
  exists (kept [] l). split; [apply sorted_nth_lt, kept_sorted|]. split.
  - intros p. rewrite kept_spec. cbn. intuition lia.
  - rewrite (nub_loop_kept l [] [] []) by auto. reflexivity.
Qed.

Local Notation fresh_right := (last_occurrence eqb).

Lemma nth_error_rev {A} (l : list A) p : p < List.length l -> nth_error (rev l) p = nth_error l (List.length l - S p).
Proof.
  intros Hp. destruct l as [|d l0]; [cbn in Hp; lia|]. set (l := d :: l0) in *.
  assert (H1 : nth_error (rev l) p = Some (nth p (rev l) d)) by (apply nth_error_nth'; rewrite rev_length; auto).
  assert (H2 : nth_error l (List.length l - S p) = Some (nth (List.length l - S p) l d)) by (apply nth_error_nth'; lia).
  rewrite H1, H2, rev_nth by auto. reflexivity.
Qed.

Lemma nub_right_spec l : forallb IsCacheable l = true ->
  exists r, NubRight ndump H (EList l) = Ok (EList r) /\ subsequence_at (fresh_right l) l r.
Proof.
  intros Hc. unfold NubRight. cbn [as_list bind IsCacheable]. rewrite Hc. eexists. split; [reflexivity|].
  set (n := List.length l). set (ks := kept [] (rev l)).
  assert (Hks : forall p, In p ks <-> p < n /\ fresh_left (rev l) p).
  { intros p. unfold ks. rewrite kept_spec. cbn. rewrite rev_length. fold n. intuition lia. }
  exists (map (fun p => n - S p) (rev ks)). split; [|split].
  - assert (Hs : StronglySorted lt (map (fun p => n - S p) (rev ks))).
    { assert (Hb : forall p, In p ks -> p < n) by (intros; now apply Hks).
      pose proof (kept_sorted (rev l) []) as Hs. fold ks in Hs. clearbody ks. clear Hks.
      induction Hs as [|a ks Hs IH Hf]; cbn; [constructor|]. rewrite map_app. cbn.
      assert (IH' := IH (fun p Hp => Hb p (or_intror Hp))).
      assert (Hlt : Forall (fun q => q < n - S a) (map (fun p => n - S p) (rev ks))).
      { apply Forall_forall. intros q Hq. apply in_map_iff in Hq as (p & <- & Hp). apply in_rev in Hp.
        rewrite Forall_forall in Hf. specialize (Hf p Hp). specialize (Hb p (or_intror Hp)). lia. }
      clear - IH' Hlt. induction IH' as [|b t Ht IHt Hft]; cbn; [repeat constructor|].
      inversion Hlt; subst. constructor; auto. apply Forall_app. split; auto. }
    now apply sorted_nth_lt.
  - intros p. rewrite in_map_iff. split.
    + intros (q & <- & Hq). apply in_rev in Hq. apply Hks in Hq as [Hq Hf]. split; [lia|].
      intros s x y Hs Hx Hy. assert (s < n) by (apply nth_error_Some; congruence).
      apply (Hf (n - S s)); [lia| |].
      * rewrite nth_error_rev by (fold n; lia). fold n. replace (n - S (n - S s)) with s by lia. auto.
      * rewrite nth_error_rev by (fold n; lia). fold n. exact Hy.
    + intros [Hp Hf]. fold n in Hp. exists (n - S p). split; [lia|]. apply in_rev. rewrite rev_involutive. apply Hks. split; [lia|].
      intros s x y Hs Hx Hy. rewrite nth_error_rev in Hx, Hy by (fold n; lia). fold n in Hx, Hy.
      replace (n - S (n - S p)) with p in Hy by lia. apply (Hf (n - S s)); auto. lia.
  - rewrite map_map. rewrite !map_rev. f_equal. rewrite (nub_loop_kept (rev l) [] [] []) by auto. cbn. fold ks. apply map_ext_in.
    intros p Hp. apply Hks in Hp as [Hp _]. symmetry. apply nth_error_rev. auto.
Qed.

End Nub.

(** ** Decimal texts, C09 *)
Local Arguments N.mul : simpl never.
Local Arguments N.add : simpl never.
Local Arguments N.sub : simpl never.
Local Arguments N.div : simpl never.
Local Arguments N.modulo : simpl never.
Local Arguments N.ltb : simpl never.
Local Arguments N.leb : simpl never.

Lemma digit_ascii d : (d < 10)%N -> N_of_ascii (ascii_of_N (48 + d)) = (48 + d)%N.
Proof. intros Hd. apply N_ascii_embedding. lia. Qed.

Lemma digit_range d : (d < 10)%N -> (N.leb 48 (48 + d) && N.leb (48 + d) 57)%bool = true.
Proof. intros Hd. apply andb_true_intro. split; apply N.leb_le; lia. Qed.

Lemma dec_go_value f : forall n acc v, (n < 2 ^ N.of_nat f)%N ->
  decimal_value n acc = Some v -> f <> O -> decimal_value 0 (dec_go f n acc) = Some v.
Proof.
  induction f as [|f IH]; intros n acc v Hn Hv Hf; [congruence|]. cbn [dec_go].
  assert (Hm : (n mod 10 < 10)%N) by (apply N.mod_lt; lia).
  destruct (N.ltb n 10) eqn:E.
  - apply N.ltb_lt in E. cbn [decimal_value]. rewrite digit_ascii by auto.
    rewrite digit_range by auto.
    rewrite N.mod_small by auto. replace (10 * 0 + (48 + n - 48))%N with n by lia. exact Hv.
  - apply N.ltb_ge in E. assert (Hd : (n / 10 < 2 ^ N.of_nat f)%N).
    { apply N.div_lt_upper_bound; [lia|]. rewrite Nat2N.inj_succ, N.pow_succ_r' in Hn.
      assert (0 < 2 ^ N.of_nat f)%N by (apply N.neq_0_lt_0, N.pow_nonzero; lia). lia. }
    apply IH; auto.
    + cbn [decimal_value]. rewrite digit_ascii by auto.
      rewrite digit_range by auto.
      replace (10 * (n / 10) + (48 + n mod 10 - 48))%N with n; [exact Hv|].
      assert (Hdm : n = (10 * (n / 10) + n mod 10)%N) by (apply N.div_mod; discriminate).
      revert Hdm. generalize (n / 10)%N (n mod 10)%N. intros; lia.
    + intros ->. cbn in Hd. assert (1 <= n / 10)%N by (apply N.div_le_lower_bound; lia). lia.
Qed.

Lemma size_bound n : (n < 2 ^ N.of_nat (S (N.size_nat n)))%N.
Proof.
  apply N.lt_le_trans with (2 ^ N.size n)%N; [apply N.size_gt|].
  apply N.pow_le_mono_r; [lia|]. destruct n; cbn [N.size_nat N.size]; [lia|].
  rewrite Nat2N.inj_succ. enough (N.of_nat (Pos.size_nat p) = Npos (Pos.size p)) by lia.
  induction p; cbn [Pos.size_nat Pos.size]; rewrite ?Nat2N.inj_succ, ?IHp; reflexivity.
Qed.

Lemma dec_value n : decimal_value 0 (dec n) = Some n.
Proof. unfold dec. apply dec_go_value; [apply size_bound|reflexivity|discriminate]. Qed.

Lemma dec_go_len f : forall n acc k, (n < 10 ^ N.of_nat (S k))%N ->
  String.length (dec_go f n acc) <= S k + String.length acc.
Proof.
  induction f as [|f IH]; intros n acc k Hn; cbn [dec_go]; [lia|]. destruct (N.ltb n 10) eqn:E; [cbn; lia|].
  apply N.ltb_ge in E. destruct k as [|k].
  - change (10 ^ N.of_nat 1)%N with 10%N in Hn. lia.
  - specialize (IH (n / 10)%N (String (ascii_of_N (48 + n mod 10)) acc) k). cbn [String.length] in IH.
    enough (n / 10 < 10 ^ N.of_nat (S k))%N by (specialize (IH H); lia).
    apply N.div_lt_upper_bound; [lia|]. rewrite Nat2N.inj_succ, N.pow_succ_r' in Hn. lia.
Qed.

Lemma pad0_len k s : String.length (pad0 k s) = k + String.length s.
Proof. induction k; cbn; auto. Qed.
Lemma pad0_value k s : decimal_value 0 (pad0 k s) = decimal_value 0 s.
Proof. induction k; cbn [pad0 decimal_value]; auto. Qed.

Lemma dec10_len n : (n < 10 ^ 10)%N -> String.length (dec10 n) = 10.
Proof.
  intros Hn. unfold dec10. rewrite pad0_len.
  pose proof (dec_go_len (S (N.size_nat n)) n "" 9 Hn) as Hl. fold (dec n) in Hl. cbn [String.length] in Hl. lia.
Qed.
Lemma dec10_value n : decimal_value 0 (dec10 n) = Some n.
Proof. unfold dec10. rewrite pad0_value. apply dec_value. Qed.

Lemma decimal_value_shift s : forall a v, decimal_value a s = Some v ->
  exists w, decimal_value 0 s = Some w /\ v = (a * 10 ^ N.of_nat (String.length s) + w)%N /\
            (w < 10 ^ N.of_nat (String.length s))%N.
Proof.
  induction s as [|c s IH]; intros a v; cbn [decimal_value String.length].
  - intros E. inversion E; subst. exists 0%N. change (10 ^ N.of_nat 0)%N with 1%N. repeat split; lia.
  - destruct (_ && _)%bool eqn:Ed; [|discriminate]. intros E. apply andb_prop in Ed as [E1 E2].
    apply N.leb_le in E1, E2. destruct (IH _ _ E) as (w & Ew & -> & Hw).
    set (d := (N_of_ascii c - 48)%N) in *. assert (Hd : (d < 10)%N) by lia.
    assert (exists w', decimal_value (10 * 0 + d) s = Some w' /\ w' = (d * 10 ^ N.of_nat (String.length s) + w)%N) as (w' & Ew' & ->).
    { clear - Ew IH. revert Ew.
      assert (HG : forall b, decimal_value 0 s = Some w -> decimal_value b s = Some (b * 10 ^ N.of_nat (String.length s) + w)%N).
      { clear. revert w. induction s as [|c s IH]; intros w b; cbn [decimal_value String.length].
        - intros E; inversion E; subst. f_equal. change (10 ^ N.of_nat 0)%N with 1%N. lia.
        - destruct (_ && _)%bool; [|discriminate]. intros E. 
          assert (exists u, decimal_value 0 s = Some u) as (u & Eu).
          { clear - E. revert E. generalize (10 * 0 + (N_of_ascii c - 48))%N as a, w. clear.
            assert (HX : forall a v, decimal_value a s = Some v -> forall b, exists u, decimal_value b s = Some u).
            { induction s as [|c s IH]; cbn [decimal_value]; eauto. intros a v. destruct (_ && _)%bool; [|discriminate].
              intros E b. eapply IH. exact E. }
            intros a w E. eapply HX. exact E. }
          rewrite (IH u _ Eu) in E. inversion E; subst w. rewrite (IH u _ Eu). f_equal.
          rewrite Nat2N.inj_succ, N.pow_succ_r'. lia. }
      intros Ew. exists (d * 10 ^ N.of_nat (String.length s) + w)%N. split; auto. }
    eexists. split; [exact Ew'|]. rewrite Nat2N.inj_succ, N.pow_succ_r'. split; [lia|].
    assert (d * 10 ^ N.of_nat (String.length s) <= 9 * 10 ^ N.of_nat (String.length s))%N by (apply N.mul_le_mono_r; lia).
    lia.
Qed.

Lemma value_lt_str a : forall b va vb, String.length a = String.length b ->
  decimal_value 0 a = Some va -> decimal_value 0 b = Some vb -> (va < vb)%N -> str_lt a b.
Proof.
  induction a as [|c a IH]; intros [|d b] va vb Hl Ha Hb Hv; try discriminate Hl.
  - cbn in Ha, Hb. inversion Ha; inversion Hb; subst. lia.
  - cbn [String.length] in Hl. injection Hl as Hl. cbn [decimal_value] in Ha, Hb.
    destruct ((_ && _)%bool) eqn:Ec in Ha; [|discriminate]. destruct ((_ && _)%bool) eqn:Ed in Hb; [|discriminate].
    apply andb_prop in Ec as [C1 C2]. apply andb_prop in Ed as [D1 D2]. apply N.leb_le in C1, C2, D1, D2.
    destruct (decimal_value_shift _ _ _ Ha) as (wa & Ewa & -> & Hwa).
    destruct (decimal_value_shift _ _ _ Hb) as (wb & Ewb & -> & Hwb). rewrite <- Hl in *.
    set (P := (10 ^ N.of_nat (String.length a))%N) in *.
    unfold str_lt. cbn [str_cmp]. destruct (N.compare_spec (N_of_ascii c) (N_of_ascii d)) as [E|E|E]; auto.
    + apply (IH b wa wb); auto. rewrite E in Hv. lia.
    + exfalso. assert ((10 * 0 + (N_of_ascii d - 48) + 1) * P <= (10 * 0 + (N_of_ascii c - 48)) * P)%N
        by (apply N.mul_le_mono_r; lia). lia.
Qed.

Lemma dec10_lt i j : (i < j)%N -> (j < 10 ^ 10)%N -> str_lt (dec10 i) (dec10 j).
Proof.
  intros Hij Hj. apply value_lt_str with i j; auto using dec10_value. rewrite !dec10_len; auto; lia.
Qed.

Lemma ainsert_last {V} k (v : V) acc : (forall p, In p acc -> str_lt (fst p) k) -> ainsert k v acc = acc ++ [(k, v)].
Proof.
  induction acc as [|[k' v'] r IH]; intros Hl; cbn; auto.
  assert (Hk : str_lt k' k) by (apply (Hl (k', v')); now left).
  rewrite (str_gt_lt _ _ Hk). f_equal. apply IH. intros p Hp. apply Hl. now right.
Qed.

Fixpoint positions (i : N) (l : list expr) : list (string * expr) :=
  match l with [] => [] | x :: r => (dec10 i, x) :: positions (N.succ i) r end.

Lemma enum_from_spec l : forall i acc, (i + N.of_nat (List.length l) <= 10 ^ 10)%N ->
  (forall p, In p acc -> exists j, (j < i)%N /\ fst p = dec10 j) ->
  enum_from i l acc = acc ++ positions i l.
Proof.
  induction l as [|x r IH]; intros i acc Hi Ha; cbn [enum_from positions]; [now rewrite app_nil_r|].
  cbn [List.length] in Hi. rewrite Nat2N.inj_succ in Hi.
  rewrite ainsert_last.
  - rewrite IH.
    + now rewrite <- app_assoc.
    + lia.
    + intros p Hp. apply in_app_or in Hp as [Hp|[<-|[]]].
      * destruct (Ha p Hp) as (j & Hj & E). exists j. split; auto. lia.
      * exists i. split; auto. lia.
  - intros p Hp. destruct (Ha p Hp) as (j & Hj & ->). apply dec10_lt; lia.
Qed.

Lemma enumerate_values l : (N.of_nat (List.length l) <= 10 ^ 10)%N ->
  exists m, Enumerate (EList l) = Ok (EMap m) /\ ValuesE (EMap m) = Ok (EList l) /\ sorted_keys m /\
    (forall i, i < List.length l -> nth_error (map fst m) i = Some (dec10 (N.of_nat i))) /\
    List.length m = List.length l.
Proof.
  intros Hl. unfold Enumerate. cbn [as_list bind]. eexists. split; [reflexivity|].
  rewrite enum_from_spec; [|lia|easy]. cbn [app].
  assert (HS : sorted_keys (positions 0 l)).
  { assert (HG : forall l i, (i + N.of_nat (List.length l) <= 10 ^ 10)%N -> sorted_keys (positions i l) /\
       forall p, In p (positions i l) -> exists j, (i <= j < i + N.of_nat (List.length l))%N /\ fst p = dec10 j).
    { clear. induction l as [|x r IH]; intros i Hi; cbn [positions]; [split; [constructor|easy]|].
      cbn [List.length] in *. rewrite Nat2N.inj_succ in *. destruct (IH (N.succ i)) as [S1 S2]; [lia|]. split.
      - constructor; auto. apply Forall_forall. intros p Hp. destruct (S2 p Hp) as (j & Hj & E). unfold key_lt. cbn.
        rewrite E. apply dec10_lt; lia.
      - intros p [<-|Hp]; [exists i; split; auto; lia|]. destruct (S2 p Hp) as (j & Hj & E). exists j. split; auto. lia. }
    now apply HG. }
  split; [|split; [exact HS|split]].
  - unfold ValuesE. cbn [as_map bind]. f_equal. f_equal. clear. generalize 0%N. induction l; intros; cbn; auto. now f_equal.
  - clear. assert (HG : forall l k i, i < List.length l -> nth_error (map fst (positions k l)) i = Some (dec10 (k + N.of_nat i))).
    { induction l0 as [|x r IH]; intros k i Hi; cbn in Hi; [lia|]. destruct i; cbn [positions map nth_error fst].
      - f_equal. f_equal. lia.
      - rewrite IH by lia. f_equal. f_equal. lia. }
    intros i Hi. rewrite HG by auto. reflexivity.
  - clear. generalize 0%N. induction l; intros; cbn; auto.
Qed.

(** ** C10 *)
Lemma quoted_loop w : forall cur rest,
  shell_words Quoted cur (quote_chars w ^^ "'" ^^ rest) = shell_words Word (cur ^^ w) rest.
Proof.
  assert (Hn : forall c w cur rest, c <> "'"%char ->
     (forall cur rest, shell_words Quoted cur (quote_chars w ^^ "'" ^^ rest) = shell_words Word (cur ^^ w) rest) ->
     shell_words Quoted cur (String c (quote_chars w) ^^ "'" ^^ rest) = shell_words Word (cur ^^ String c w) rest).
  { intros c v cur rest Hc IH.
    change (String c (quote_chars v) ^^ "'" ^^ rest) with (String c (quote_chars v ^^ "'" ^^ rest)).
    cbn [shell_words]. rewrite (proj2 (Ascii.eqb_neq _ _) Hc). rewrite IH.
    rewrite app_str_assoc. reflexivity. }
  induction w as [|c w IH]; intros cur rest.
  - cbn. now rewrite app_str_nil_r.
  - destruct (ascii_dec c "'") as [->|Hc].
    + change (quote_chars (String "'" w) ^^ "'" ^^ rest) with (String "'" (String "\" (String "'" (String "'" (quote_chars w ^^ "'" ^^ rest))))).
      cbn [shell_words]. change (Ascii.eqb "'" "'") with true. change (Ascii.eqb "\" " ") with false.
      change (Ascii.eqb "\" "'") with false. change (Ascii.eqb "\" "\") with true.
      change (Ascii.eqb "'" " ") with false. cbv iota. rewrite IH. rewrite app_str_assoc. reflexivity.
    + assert (E : quote_chars (String c w) = String c (quote_chars w)).
      { destruct c as [[] [] [] [] [] [] [] []]; try reflexivity. congruence. }
      rewrite E. apply Hn; auto.
Qed.

Lemma shell_quote_word w rest : shell_words Blank "" (ShellQuote w ^^ rest) = shell_words Word w rest.
Proof.
  unfold ShellQuote. rewrite !app_str_assoc. change ("'" ^^ ?x) with (String "'" x). cbn [String.append shell_words].
  cbn. change (String "'" rest) with ("'" ^^ rest). rewrite quoted_loop. reflexivity.
Qed.

Lemma join_cmd_split ws : shell_split (str_concat " " (map ShellQuote ws)) = Some ws.
Proof.
  unfold shell_split. induction ws as [|w ws IH]; [reflexivity|]. destruct ws as [|w' ws].
  - cbn [map str_concat]. rewrite <- (app_str_nil_r (ShellQuote w)). rewrite shell_quote_word. reflexivity.
  - cbn [map] in *. change (str_concat " " (?a :: ?b :: ?r)) with (a ^^ String " " (str_concat " " (b :: r))).
    rewrite shell_quote_word. cbn [shell_words].
    change (Ascii.eqb " " " ") with true. cbv iota. rewrite IH. reflexivity.
Qed.

Lemma mapM_strs ws : mapM as_str (map EStr ws) = Ok ws.
Proof. induction ws as [|w ws IH]; cbn; auto. rewrite IH. reflexivity. Qed.

(** ** C11 *)
Lemma escape_roundtrip chars p : has_char p chars = true -> forall s,
  exists t, escape_loop s (EStr chars) (EStr (String p "")) = Ok t /\ unescape p t = s.
Proof.
  intros Hp. induction s as [|c s (t & Et & Eu)]; [exists ""; auto|]. cbn [escape_loop as_str bind].
  destruct (has_char c chars) eqn:Hc.
  - rewrite Et. cbn [bind String.append]. eexists. split; [reflexivity|]. cbn [unescape]. rewrite Ascii.eqb_refl. now rewrite Eu.
  - rewrite Et. cbn [bind]. eexists. split; [reflexivity|]. cbn [unescape].
    assert (Ascii.eqb c p = false) as ->.
    { apply Ascii.eqb_neq. intros ->. congruence. }
    now rewrite Eu.
Qed.

(** ** C12 *)
Section Subdir.
Variable ndump : num -> string.
Variable H : string -> string.
Local Notation eqb := (expr_eqb ndump H).
Variable nk : string -> string.
Variable ow : bool.

Local Notation clash := (clash eqb nk).
Local Notation staged := (staged eqb nk).

Lemma stage_loop rest : forall done acc,
  (forall p q, In p done -> In q rest -> str_lt (fst p) (fst q)) -> sorted_keys rest ->
  staged done acc -> ~ clash done ->
  (foldM (fun acc p => stage ndump H ow acc (nk (fst p)) (snd p)) rest acc = Err /\ clash (done ++ rest)) \/
  (exists r, foldM (fun acc p => stage ndump H ow acc (nk (fst p)) (snd p)) rest acc = Ok r /\
     staged (done ++ rest) r /\ ~ clash (done ++ rest)).
Proof.
  induction rest as [|[k v] rest IH]; intros done acc Hlt Hs Hst Hnc.
  - right. exists acc. rewrite app_nil_r. auto.
  - destruct Hst as (Sa & S1 & S2). cbn [foldM fst snd].
    assert (Hsplit : done ++ (k, v) :: rest = (done ++ [(k, v)]) ++ rest) by now rewrite <- app_assoc.
    assert (Hlt' : forall p q, In p (done ++ [(k, v)]) -> In q rest -> str_lt (fst p) (fst q)).
    { intros p q Hp Hq. apply in_app_or in Hp as [Hp|[<-|[]]].
      - apply Hlt; auto. now right.
      - apply (sorted_keys_head (k, v) rest); auto. }
    unfold stage at 1 3. destruct (alookup (nk k) acc) as [w|] eqn:Ew.
    + destruct (S1 _ _ Ew) as (k0 & Hk0 & Ek0).
      destruct (eqb w v && IsCacheable v)%bool eqn:Ec; cbn [bind].
      * rewrite Hsplit. apply IH; auto; [now apply sorted_keys_tail in Hs| |].
        -- apply andb_prop in Ec as [Ec Hcv]. destruct ow.
           ++ split; [now apply ainsert_sorted|]. split.
              ** intros p x Hx. rewrite ainsert_lookup in Hx. destruct (String.eqb_spec p (nk k)) as [->|Hne].
                 --- inversion Hx; subst. exists k. split; auto. apply in_or_app. right. now left.
                 --- destruct (S1 _ _ Hx) as (k' & Hk' & E'). exists k'. split; auto. apply in_or_app. now left.
              ** intros k' v' Hi. rewrite ainsert_lookup. destruct (String.eqb_spec (nk k') (nk k)) as [E|Hne].
                 --- exists v. split; auto. apply in_app_or in Hi as [Hi|[E'|[]]].
                     +++ destruct (S2 _ _ Hi) as (w' & Ew' & Eq'). rewrite E, Ew in Ew'. inversion Ew'; subst w'.
                         eapply eqb_trans; [|exact Eq']. now rewrite eqb_sym.
                     +++ inversion E'; subst. apply eqb_refl.
                 --- apply in_app_or in Hi as [Hi|[E'|[]]]; [now apply S2|]. inversion E'; subst. congruence.
           ++ split; auto. split.
              ** intros p x Hx. destruct (S1 _ _ Hx) as (k' & Hk' & E'). exists k'. split; auto. apply in_or_app. now left.
              ** intros k' v' Hi. apply in_app_or in Hi as [Hi|[E'|[]]]; [now apply S2|]. inversion E'; subst.
                 exists w. auto.
        -- intros (k1 & v1 & k2 & v2 & H1 & H2 & Hl & Hn & Hc).
           apply in_app_or in H1, H2. destruct H2 as [H2|[E2|[]]].
           ++ destruct H1 as [H1|[E1|[]]].
              ** apply Hnc. exists k1, v1, k2, v2. auto.
              ** inversion E1; subst. specialize (Hlt _ _ H2 (or_introl eq_refl)). cbn in Hlt.
                 now apply (str_lt_asym k1 k2).
           ++ inversion E2; subst k2 v2. apply andb_prop in Ec as [Ec Hcv]. rewrite Hcv, andb_true_r in Hc.
              destruct H1 as [H1|[E1|[]]].
              ** destruct (S2 _ _ H1) as (w' & Ew' & Eq'). rewrite Hn, Ew in Ew'. inversion Ew'; subst w'.
                 assert (eqb v1 v = true); [|congruence]. eapply eqb_trans; [|exact Ec]. now rewrite eqb_sym.
              ** inversion E1; subst. now apply str_lt_irrefl in Hl.
      * left. split; auto. rewrite Hsplit. exists k0, w, k, v. repeat split; auto.
        -- apply in_or_app. left. apply in_or_app. now left.
        -- apply in_or_app. left. apply in_or_app. right. now left.
        -- apply (Hlt (k0, w) (k, v)); auto. now left.
    + cbn [bind]. rewrite Hsplit. apply IH; auto; [now apply sorted_keys_tail in Hs| |].
      * split; [now apply ainsert_sorted|]. split.
        -- intros p x Hx. rewrite ainsert_lookup in Hx. destruct (String.eqb_spec p (nk k)) as [->|Hne].
           ++ inversion Hx; subst. exists k. split; auto. apply in_or_app. right. now left.
           ++ destruct (S1 _ _ Hx) as (k' & Hk' & E'). exists k'. split; auto. apply in_or_app. now left.
        -- intros k' v' Hi. rewrite ainsert_lookup. apply in_app_or in Hi as [Hi|[E'|[]]].
           ++ destruct (S2 _ _ Hi) as (w & Ew' & Eq'). destruct (String.eqb_spec (nk k') (nk k)) as [E|Hne]; [|eauto].
              rewrite E in Ew'. congruence.
           ++ inversion E'; subst. rewrite String.eqb_refl. exists v'. split; auto. apply eqb_refl.
      * intros (k1 & v1 & k2 & v2 & H1 & H2 & Hl & Hn & Hc).
        apply in_app_or in H1, H2. destruct H2 as [H2|[E2|[]]].
        -- destruct H1 as [H1|[E1|[]]].
           ++ apply Hnc. exists k1, v1, k2, v2. auto.
           ++ inversion E1; subst. specialize (Hlt _ _ H2 (or_introl eq_refl)). cbn in Hlt.
              now apply (str_lt_asym k1 k2).
        -- inversion E2; subst k2 v2. destruct H1 as [H1|[E1|[]]].
           ++ destruct (S2 _ _ H1) as (w' & Ew' & Eq'). congruence.
           ++ inversion E1; subst. now apply str_lt_irrefl in Hl.
Qed.

End Subdir.

(** ** C13 *)
Section Quasi.
Variables (ev : evaluator) (c : env).

Lemma rebuild m : sorted_keys m -> fold_left (fun acc p => ainsert (fst p) (snd p) acc) m [] = m :> list (string * expr).
Proof.
  enough (HG : forall m acc, sorted_keys (acc ++ m) -> fold_left (fun acc p => ainsert (fst p) (snd p) acc) m acc = acc ++ m :> list (string * expr)).
  { intros Hs. apply (HG m []). exact Hs. }
  clear. induction m as [|[k v] m IH]; intros acc Hs; cbn [fold_left fst snd]; [now rewrite app_nil_r|].
  rewrite ainsert_last.
  - rewrite IH; rewrite <- app_assoc; auto.
  - intros p Hp. clear IH. induction acc as [|q acc IH]; [destruct Hp|]. cbn in Hs. destruct Hp as [->|Hp].
    + apply (sorted_keys_head p (acc ++ (k, v) :: m) (k, v)); auto. apply in_or_app. right. now left.
    + apply IH; auto. now apply sorted_keys_tail in Hs.
Qed.

Lemma regular_case m t (A B C : res expr) : marker m = false ->
  match alookup "type" m with
  | Some (EStr ",") => A
  | Some (EStr ",@") => B
  | _ => C
  end = C /\ t = t :> nat.
Proof.
  unfold marker. intros Hm. split; auto. destruct (alookup "type" m) as [[]|]; auto.
  repeat match goal with
         | |- context [match ?x with _ => _ end] => is_var x; destruct x; auto; try discriminate Hm
         end.
Qed.

Lemma mapM_entries (m : list (string * expr)) : Forall (fun p => ExpandQuasiQuote ev c (snd p) = Ok (snd p)) m ->
  mapM (fun p => match p with (k, x) => bind (ExpandQuasiQuote ev c x) (fun y => Ok (k, y)) end) m = Ok m.
Proof. induction 1 as [|[k x] m Hx Hm IH]; cbn in *; auto. rewrite Hx. cbn. rewrite IH. reflexivity. Qed.

Lemma mapM_elems l : Forall (fun x => ExpandQuasiQuoteListEntry ev c x = Ok (EList [x])) l ->
  mapM (fun x => y <- ExpandQuasiQuoteListEntry ev c x ;; as_list y) l = Ok (map (fun x => [x]) l).
Proof. induction 1 as [|x l Hx Hm IH]; cbn in *; auto. rewrite Hx. cbn. rewrite IH. reflexivity. Qed.

Lemma concat_single {A} (l : list A) : concat (map (fun x => [x]) l) = l.
Proof. induction l; cbn; congruence. Qed.

Lemma literal_quasi e : wf e -> unmarked e = true -> no_map_in_list e = true ->
  ExpandQuasiQuote ev c e = Ok e /\ (is_map e = false -> ExpandQuasiQuoteListEntry ev c e = Ok (EList [e])).
Proof.
  induction e using expr_ind'; intros Hw Hu Hn; try (split; [reflexivity|intros _; reflexivity]).
  - assert (HF : Forall (fun x => ExpandQuasiQuoteListEntry ev c x = Ok (EList [x])) l).
    { cbn in Hw, Hu, Hn. clear -H Hw Hu Hn. induction H as [|x l Hx Hl IH]; constructor; cbn in *.
      - apply andb_prop in Hu as [U1 U2]. apply andb_prop in Hn as [N1 N2]. apply andb_prop in N1 as [N0 N1].
        apply Hx; auto; [apply Hw|]. now apply negb_true_iff in N0.
      - apply andb_prop in Hu as [U1 U2]. apply andb_prop in Hn as [N1 N2]. apply IH; auto. apply Hw. }
    split; [|intros _]; cbn; rewrite (mapM_elems l HF); cbn; rewrite concat_single; reflexivity.
  - split; [|discriminate]. cbn in Hu. apply andb_prop in Hu as [Hm Hu]. apply negb_true_iff in Hm.
    destruct Hw as [Hs Hw]. cbn [ExpandQuasiQuote].
    assert (HF : Forall (fun p => ExpandQuasiQuote ev c (snd p) = Ok (snd p)) m).
    { cbn in Hn. clear -H Hw Hu Hn. induction H as [|[k x] l Hx Hl IH]; constructor; cbn in *.
      - apply andb_prop in Hu as [U1 U2]. apply andb_prop in Hn as [N1 N2]. apply Hx; auto. apply Hw.
      - apply andb_prop in Hu as [U1 U2]. apply andb_prop in Hn as [N1 N2]. apply IH; auto. apply Hw. }
    pose proof (mapM_entries m HF) as E. cbv zeta. rewrite E. cbn [bind]. rewrite rebuild by auto.
    apply (proj1 (regular_case m 0 _ _ _ Hm)).
Qed.

End Quasi.

Section Quasi2.
Variables (ev : evaluator) (c : env).

Lemma mapM_all_or_err {A B} (f : A -> res B) (g : A -> B) (ok : A -> bool) l :
  (forall x, In x l -> f x = if ok x then Ok (g x) else Err) ->
  mapM f l = if forallb ok l then Ok (map g l) else Err.
Proof.
  induction l as [|x l IH]; intros Hf; cbn; auto. rewrite (Hf x (or_introl eq_refl)).
  destruct (ok x); cbn; auto. rewrite IH by (intros; apply Hf; now right). destruct (forallb ok l); reflexivity.
Qed.

Lemma literal_quasi_exact e : wf e -> unmarked e = true ->
  ExpandQuasiQuote ev c e = (if no_map_in_list e then Ok e else Err) /\
  bind (ExpandQuasiQuoteListEntry ev c e) (fun y => as_list y) =
    (if (negb (is_map e) && no_map_in_list e)%bool then Ok [e] else Err).
Proof.
  induction e using expr_ind'; intros Hw Hu; try (split; reflexivity).
  - assert (HM : mapM (fun x => y <- ExpandQuasiQuoteListEntry ev c x ;; as_list y) l =
       if forallb (fun x => (negb (is_map x) && no_map_in_list x)%bool) l then Ok (map (fun x => [x]) l) else Err).
    { apply mapM_all_or_err. intros x Hx. rewrite Forall_forall in H. apply H; auto.
      - clear -Hw Hx. cbn in Hw. induction l as [|a l IH]; [destruct Hx|]. cbn in Hw. destruct Hx as [->|Hx]; [apply Hw|apply IH; auto; apply Hw].
      - cbn in Hu. rewrite forallb_forall in Hu. auto. }
    cbn [ExpandQuasiQuote ExpandQuasiQuoteListEntry is_map negb no_map_in_list andb]. rewrite HM.
    destruct (forallb _ l); cbn [bind as_list]; rewrite ?concat_single; auto.
  - cbn in Hu. apply andb_prop in Hu as [Hm Hu]. apply negb_true_iff in Hm. destruct Hw as [Hs Hw].
    assert (HM : mapM (fun p => match p with (k, x) => y <- ExpandQuasiQuote ev c x ;; Ok (k, y) end) m =
       if forallb (fun p => match p with (_, v) => no_map_in_list v end) m then Ok (map (fun p => p) m) else Err).
    { apply mapM_all_or_err. intros [k x] Hx. rewrite Forall_forall in H.
      destruct (H (k, x) Hx) as [E _]; cbn [snd].
      - clear -Hw Hx. induction m as [|[a b] l IH]; [destruct Hx|]. cbn in Hw. destruct Hx as [E|Hx]; [inversion E; subst; apply Hw|apply IH; auto; apply Hw].
      - rewrite forallb_forall in Hu. apply (Hu (k, x) Hx).
      - cbn [snd] in E. rewrite E. destruct (no_map_in_list x); reflexivity. }
    rewrite map_id in HM.
    cbn [ExpandQuasiQuote ExpandQuasiQuoteListEntry is_map negb no_map_in_list andb]. cbv zeta. rewrite HM.
    rewrite (proj1 (regular_case m 0 _ _ _ Hm)). rewrite (proj1 (regular_case m 0 _ _ _ Hm)).
    split; destruct (forallb (fun p : string * expr => let (_, v) := p in no_map_in_list v) m); cbn [bind as_list]; rewrite ?rebuild by auto; auto.
Qed.

End Quasi2.

(** ** Calls through the evaluator *)
Section Calls.
Variable ndump : num -> string.
Variable H : string -> string.
Variable provided : list (string * function).

Lemma eval_builtin n ty f m c : not_shadowed provided ty -> alookup ty (kBuiltInFunctions ndump H) = Some f ->
  alookup "type" m = Some (EStr ty) ->
  Evaluate ndump H provided (S n) (EMap m) c = f (Evaluate ndump H provided n) m c.
Proof.
  intros Hn Hf Ht. cbn [Evaluate]. unfold Field. rewrite Ht. cbn [bind as_str]. unfold find_function.
  rewrite Hn, Hf. reflexivity.
Qed.

End Calls.
