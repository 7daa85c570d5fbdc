(** Proofs about digests and names on the wire. *)
From Coq Require Import String Ascii NArith List Bool Arith Lia DecimalString.
From Verif Require Import Hex.Model Describe.Model Describe.Proofs Remote.Names Remote.NamesSpec.
Import ListNotations.
Local Open Scope string_scope.
Local Open Scope list_scope.

Lemma of_app : forall a b, list_ascii_of_string (a ++ b)%string = list_ascii_of_string a ++ list_ascii_of_string b.
Proof. induction a as [|c a IH]; intros b; cbn; [reflexivity|now rewrite IH]. Qed.
Lemma to_app : forall a b,
  string_of_list_ascii (a ++ b) = (string_of_list_ascii a ++ string_of_list_ascii b)%string.
Proof. induction a as [|c a IH]; intros b; cbn; [reflexivity|now rewrite IH]. Qed.
Lemma app_str_assoc : forall a b c, ((a ++ b) ++ c = a ++ (b ++ c))%string.
Proof. induction a as [|x a IH]; intros b c; cbn; [reflexivity|now rewrite IH]. Qed.
Lemma app_str_nil : forall a, (a ++ "" = a)%string.
Proof. induction a as [|x a IH]; cbn; [reflexivity|now rewrite IH]. Qed.
Lemma length_app_str : forall a b, String.length (a ++ b)%string = String.length a + String.length b.
Proof. induction a as [|x a IH]; intros b; cbn; [reflexivity|now rewrite IH]. Qed.

(** ** Digests *)
Lemma substring_all : forall s, substring 0 (String.length s) s = s.
Proof. induction s as [|c s IH]; cbn; [reflexivity|now rewrite IH]. Qed.

Lemma valid_length t h b : valid_input t h b = true -> String.length h = hash_length t.
Proof.
  unfold valid_input. intros H. apply andb_true_iff in H. destruct H as [H _].
  apply andb_true_iff in H. destruct H as [_ H]. now apply Nat.eqb_eq.
Qed.

Lemma valid_compat h b : valid_input PlainSHA256 h b = true -> b = false.
Proof. unfold valid_input. destruct b; [discriminate|reflexivity]. Qed.

Lemma from_to t d : valid_input t (d_hash d) (d_tree d) = true -> FromBazel t (ToBazel t d) = Some d.
Proof.
  destruct d as [h b n]. cbn [d_hash d_tree d_size]. intros V.
  assert (L := valid_length _ _ _ V).
  unfold FromBazel, ToBazel, IsPrefixed. cbn [d_hash d_tree d_size w_hash w_size].
  destruct t; cbn [IsNative].
  - unfold Prefix. rewrite length_app_str, L.
    assert (T : String.length (if b then kTreeTag else kBlobTag) = 2) by now destruct b.
    rewrite T. change (hash_length GitSHA1 + kTagLength) with 42. change (2 + hash_length GitSHA1) with 42.
    rewrite Nat.eqb_refl.
    assert (U : Unprefix ((if b then kTreeTag else kBlobTag) ++ h)%string = h).
    { unfold Unprefix. rewrite length_app_str, T. destruct b; cbn; rewrite Nat.sub_0_r; apply substring_all. }
    rewrite U.
    assert (P : prefix kTreeTag ((if b then kTreeTag else kBlobTag) ++ h)%string = b).
    { destruct b; [|reflexivity]. unfold kTreeTag. cbn. now destruct h. }
    rewrite P, andb_true_l. now rewrite V.
  - rewrite L. change (Nat.eqb (hash_length PlainSHA256) (hash_length PlainSHA256 + kTagLength)) with false.
    assert (b = false) as -> by exact (valid_compat _ _ V). cbn [andb]. now rewrite V.
Qed.

(** ** Splitting *)
Fixpoint frag (s cur : list ascii) (check : bool) : list string * list ascii * bool :=
  match s with
  | [] => ([], cur, check)
  | c :: r =>
      if check && Ascii.eqb c "/" then
        let '(ps, cur', ck) := frag r [] false in (string_of_list_ascii (rev cur) :: ps, cur', ck)
      else frag r (c :: cur) true
  end.

Lemma split_frag : forall s r cur check,
  split_go (s ++ r) cur check =
  let '(ps, cur', ck) := frag s cur check in ps ++ split_go r cur' ck.
Proof.
  induction s as [|c s IH]; intros r cur check; cbn [frag split_go app]; [reflexivity|].
  destruct (check && Ascii.eqb c "/").
  - rewrite IH. destruct (frag s [] false) as [[ps cur'] ck]. reflexivity.
  - apply IH.
Qed.

Lemma frag_check : forall s cur check, s <> [] -> (forall s', s <> s' ++ ["/"%char]) ->
  snd (frag s cur check) = true.
Proof.
  induction s as [|c s IH]; intros cur check Hn HE; [congruence|]. cbn [frag].
  destruct s as [|c' s'].
  - destruct (Ascii.eqb_spec c "/") as [->|Hc].
    + exfalso. exact (HE [] eq_refl).
    + rewrite andb_false_r. reflexivity.
  - destruct (check && Ascii.eqb c "/").
    + assert (X := IH [] false). destruct (frag (c' :: s') [] false) as [[ps cur'] ck].
      cbn [snd] in *. apply X; [discriminate|]. intros s0 E. apply (HE (c :: s0)). cbn. now rewrite E.
    + apply IH; [discriminate|]. intros s0 E. apply (HE (c :: s0)). cbn. now rewrite E.
Qed.

Lemma join_cons : forall p l x, join_instance (p :: l ++ [x]) = (p ++ "/" ++ join_instance (l ++ [x]))%string.
Proof. intros p [|y l] x; reflexivity. Qed.

Lemma frag_join : forall s cur check ps cur' ck, frag s cur check = (ps, cur', ck) ->
  join_instance (ps ++ [string_of_list_ascii (rev cur')]) = string_of_list_ascii (rev cur ++ s).
Proof.
  induction s as [|c s IH]; intros cur check ps cur' ck E; cbn [frag] in E.
  - injection E as <- <- <-. cbn. now rewrite app_nil_r.
  - destruct (check && Ascii.eqb c "/") eqn:B.
    + apply andb_true_iff in B. destruct B as [_ B]. apply Ascii.eqb_eq in B. subst c.
      destruct (frag s [] false) as [[ps0 cur0] ck0] eqn:F. injection E as <- <- <-.
      cbn [app]. rewrite join_cons, (IH _ _ _ _ _ F). cbn [rev app]. now rewrite !to_app.
    + rewrite (IH _ _ _ _ _ E). cbn [rev]. now rewrite <- app_assoc.
Qed.

Lemma frag_segments : forall s cur check ps cur' ck pre, frag s cur check = (ps, cur', ck) ->
  (pre = "" \/ exists b, pre = b ++ "/")%string ->
  forall p, In p (ps ++ [string_of_list_ascii (rev cur')]) ->
  segment p (pre ++ string_of_list_ascii (rev cur ++ s))%string.
Proof.
  induction s as [|c s IH]; intros cur check ps cur' ck pre E HP p Hp; cbn [frag] in E.
  - injection E as <- <- <-. destruct Hp as [<-|[]]. exists pre, "". rewrite app_nil_r, app_str_nil. auto.
  - destruct (check && Ascii.eqb c "/") eqn:B.
    + apply andb_true_iff in B. destruct B as [_ B]. apply Ascii.eqb_eq in B. subst c.
      destruct (frag s [] false) as [[ps0 cur0] ck0] eqn:F. injection E as <- <- <-.
      destruct Hp as [<-|Hp].
      * exists pre, ("/" ++ string_of_list_ascii s)%string. rewrite to_app. cbn. split; [reflexivity|].
        split; [exact HP|]. right. eexists. reflexivity.
      * specialize (IH [] false ps0 cur0 ck0 (pre ++ string_of_list_ascii (rev cur) ++ "/")%string F).
        rewrite to_app. cbn [string_of_list_ascii rev app] in *.
        replace (pre ++ string_of_list_ascii (rev cur) ++ String "/" (string_of_list_ascii s))%string
          with ((pre ++ string_of_list_ascii (rev cur) ++ "/") ++ string_of_list_ascii s)%string
          by now rewrite !app_str_assoc.
        apply IH; [|exact Hp]. right. eexists. symmetry. apply app_str_assoc.
    + specialize (IH _ _ _ _ _ pre E HP p Hp). cbn [rev] in IH. now rewrite <- app_assoc in IH.
Qed.

(** A part without slashes. *)
Lemma frag_plain : forall s cur, ~ In "/"%char s -> frag s cur true = ([], rev s ++ cur, true).
Proof.
  induction s as [|c s IH]; intros cur H; cbn [frag]; [reflexivity|].
  destruct (Ascii.eqb_spec c "/") as [->|Hc]; [destruct H; now left|]. cbn [andb].
  rewrite IH by (intros X; apply H; now right). cbn [rev]. now rewrite <- app_assoc.
Qed.

Lemma split_plain : forall f r, plain f ->
  split_go (list_ascii_of_string f ++ "/"%char :: r) [] false = f :: split_go r [] false.
Proof.
  intros f r [H1 H2]. destruct f as [|c f]; [congruence|]. cbn [list_ascii_of_string app split_go andb] in *.
  rewrite split_frag, frag_plain by (intros X; apply H2; now right).
  cbn [app split_go andb]. rewrite Ascii.eqb_refl. f_equal. rewrite rev_app_distr, rev_involutive. cbn.
  now rewrite string_of_list_ascii_of_string.
Qed.

Lemma split_last : forall f, plain f -> split_go (list_ascii_of_string f) [] false = [f].
Proof.
  intros f [H1 H2]. destruct f as [|c f]; [congruence|]. cbn [list_ascii_of_string split_go andb] in *.
  rewrite <- (app_nil_r (list_ascii_of_string f)).
  rewrite split_frag, frag_plain by (intros X; apply H2; now right). cbn [app split_go].
  destruct (rev (list_ascii_of_string f) ++ [c]) eqn:E; [now destruct (rev (list_ascii_of_string f))|].
  rewrite <- E, rev_app_distr, rev_involutive. cbn. now rewrite string_of_list_ascii_of_string.
Qed.

Lemma split_first : forall f r, plain f ->
  split_go (list_ascii_of_string f ++ "/"%char :: r) [] true = f :: split_go r [] false.
Proof.
  intros f r [H1 H2]. rewrite split_frag, frag_plain by exact H2. rewrite app_nil_r.
  cbn [app split_go andb]. rewrite Ascii.eqb_refl. now rewrite rev_involutive, string_of_list_ascii_of_string.
Qed.

(** ** Names *)

(** The fragments of an instance name. *)
Lemma instance_split : forall inst, inst <> "" -> instance_name inst -> exists parts,
  (forall r, split_go (list_ascii_of_string inst ++ "/"%char :: r) [] true = parts ++ split_go r [] false) /\
  join_instance parts = inst /\ forall k, In k keywords -> ~ In k parts.
Proof.
  intros inst Hn [E|[HS HK]]; [congruence|].
  destruct (frag (list_ascii_of_string inst) [] true) as [[ps cur'] ck] eqn:F.
  assert (CK : ck = true).
  { assert (X := frag_check (list_ascii_of_string inst) [] true). rewrite F in X. apply X.
    - destruct inst; [congruence|discriminate].
    - intros s' E. apply (HS (string_of_list_ascii s')).
      rewrite <- (string_of_list_ascii_of_string inst), E. apply to_app. }
  exists (ps ++ [string_of_list_ascii (rev cur')]). split; [|split].
  - intros r. rewrite split_frag, F, CK. cbn [split_go andb]. rewrite Ascii.eqb_refl. now rewrite <- app_assoc.
  - rewrite (frag_join _ _ _ _ _ _ F). cbn. apply string_of_list_ascii_of_string.
  - intros k Hk Hp. apply (HK k Hk).
    assert (X := frag_segments _ _ _ _ _ _ "" F (or_introl eq_refl) _ Hp). cbn in X.
    now rewrite string_of_list_ascii_of_string in X.
Qed.

Lemma reserved_keyword : forall p, reserved p = true -> In p keywords.
Proof.
  intros p H. apply existsb_exists in H. destruct H as (x & Hx & E). apply String.eqb_eq in E. subst x.
  unfold keywords. now do 2 right.
Qed.

Lemma find_before : forall wanted forbidden before after, In wanted keywords -> In forbidden keywords ->
  (forall k, In k keywords -> ~ In k before) ->
  find_fragment wanted forbidden (before ++ wanted :: after) = Some (before, after).
Proof.
  induction before as [|p before IH]; intros after HW HF HK; cbn [app find_fragment].
  - now rewrite String.eqb_refl.
  - destruct (String.eqb_spec p wanted) as [->|]; [destruct (HK _ HW); now left|].
    destruct (String.eqb_spec p forbidden) as [->|]; [destruct (HK _ HF); now left|].
    destruct (reserved p) eqn:R; [destruct (HK _ (reserved_keyword _ R)); now left|].
    rewrite IH; auto. intros k Hk Hb. apply (HK k Hk). now right.
Qed.

Lemma find_forbidden : forall wanted forbidden before after, In wanted keywords ->
  wanted <> forbidden -> (forall k, In k keywords -> ~ In k before) ->
  find_fragment wanted forbidden (before ++ forbidden :: after) = None.
Proof.
  induction before as [|p before IH]; intros after HW HN HK; cbn [app find_fragment].
  - destruct (String.eqb_spec forbidden wanted); [congruence|]. now rewrite String.eqb_refl.
  - destruct (String.eqb_spec p wanted) as [->|]; [destruct (HK _ HW); now left|].
    destruct (String.eqb p forbidden); [reflexivity|].
    destruct (reserved p); [reflexivity|]. rewrite IH; auto. intros k Hk Hb. apply (HK k Hk). now right.
Qed.

Lemma N_text_plain : forall n, plain (N_text n).
Proof.
  intros n. split.
  - unfold N_text, NilZero.string_of_uint. destruct (N.to_uint n); discriminate.
  - rewrite N_text_empty. induction (N.to_uint n); cbn; intros X; try exact X; destruct X as [E|E]; auto; discriminate.
Qed.

Lemma blobs_plain : plain kBlobs.
Proof. split; [discriminate|]. cbn. intuition discriminate. Qed.
Lemma uploads_plain : plain kUploads.
Proof. split; [discriminate|]. cbn. intuition discriminate. Qed.
Lemma blobs_keyword : In kBlobs keywords.
Proof. now left. Qed.
Lemma uploads_keyword : In kUploads keywords.
Proof. right. now left. Qed.

(** How the names of both kinds are split. *)
Lemma named_split : forall inst word rest, instance_name inst -> plain word -> In word keywords ->
  exists parts,
    SplitRequest ((match inst with EmptyString => word | _ => inst ++ "/" ++ word end) ++ "/" ++ rest)%string =
      parts ++ word :: split_go (list_ascii_of_string rest) [] false /\
    join_instance parts = inst /\ (forall k, In k keywords -> ~ In k parts).
Proof.
  intros inst word rest HI HP HW. unfold SplitRequest. destruct inst as [|c inst].
  - exists []. split; [|split; [reflexivity|intros k _ []]].
    rewrite of_app. cbn [list_ascii_of_string append app]. now rewrite split_first.
  - destruct (instance_split (String c inst)) as (parts & E & J & K); [discriminate|exact HI|].
    exists parts. split; [|split; assumption].
    rewrite !of_app. rewrite <- app_assoc. cbn [list_ascii_of_string append].
    change (list_ascii_of_string ("/" ++ rest)) with ("/"%char :: list_ascii_of_string rest).
    cbn [list_ascii_of_string append app] in E. rewrite <- app_assoc. cbn [app]. rewrite E. f_equal.
    change (String "/" word) with ("/" ++ word)%string.
    now rewrite split_plain.
Qed.

Lemma read_named : forall inst w, instance_name inst -> plain (w_hash w) -> exists parts,
  SplitRequest (read_ToString inst w) = parts ++ kBlobs :: [w_hash w; N_text (w_size w)] /\
  join_instance parts = inst /\ (forall k, In k keywords -> ~ In k parts).
Proof.
  intros inst w HI HP.
  destruct (named_split inst kBlobs (w_hash w ++ "/" ++ N_text (w_size w))%string HI blobs_plain blobs_keyword)
    as (parts & E & J & K).
  exists parts. split; [|split; assumption]. unfold read_ToString. rewrite E. do 2 f_equal.
  rewrite of_app. cbn [append list_ascii_of_string]. rewrite split_plain by exact HP.
  f_equal. apply split_last, N_text_plain.
Qed.

Lemma write_named : forall inst uuid w, instance_name inst -> plain uuid -> plain (w_hash w) -> exists parts,
  SplitRequest (write_ToString inst uuid w) = parts ++ kUploads :: [uuid; kBlobs; w_hash w; N_text (w_size w)] /\
  join_instance parts = inst /\ (forall k, In k keywords -> ~ In k parts).
Proof.
  intros inst uuid w HI HU HP.
  destruct (named_split inst kUploads (uuid ++ "/" ++ kBlobs ++ "/" ++ w_hash w ++ "/" ++ N_text (w_size w))%string
    HI uploads_plain uploads_keyword) as (parts & E & J & K).
  exists parts. split; [|split; assumption]. unfold write_ToString. rewrite E. do 2 f_equal.
  rewrite of_app. cbn [append list_ascii_of_string]. rewrite split_plain by exact HU. f_equal.
  change (String "/" (kBlobs ++ String "/" (w_hash w ++ String "/" (N_text (w_size w)))))%string
    with (String "/" (kBlobs ++ ("/" ++ (w_hash w ++ ("/" ++ N_text (w_size w))))))%string.
  rewrite of_app. cbn [append list_ascii_of_string]. rewrite split_plain by exact blobs_plain. f_equal.
  rewrite of_app. cbn [append list_ascii_of_string]. rewrite split_plain by exact HP. f_equal.
  apply split_last, N_text_plain.
Qed.

Lemma read_round_trip : forall inst w, instance_name inst -> plain (w_hash w) -> (w_size w < 2 ^ 64)%N ->
  read_FromString (read_ToString inst w) = Some (mkRead inst w).
Proof.
  intros inst w HI HP HS. destruct (read_named inst w HI HP) as (parts & E & J & K).
  unfold read_FromString. rewrite E, find_before by (auto using blobs_keyword, uploads_keyword).
  rewrite stoul10_text by exact HS. rewrite J. now destruct w.
Qed.

Lemma write_round_trip : forall inst uuid w, instance_name inst -> plain uuid -> plain (w_hash w) ->
  (w_size w < 2 ^ 64)%N ->
  write_FromString (write_ToString inst uuid w) = Some (mkWrite inst uuid w).
Proof.
  intros inst uuid w HI HU HP HS. destruct (write_named inst uuid w HI HU HP) as (parts & E & J & K).
  unfold write_FromString. rewrite E, find_before by (auto using blobs_keyword, uploads_keyword).
  cbn [String.eqb]. rewrite String.eqb_refl, stoul10_text by exact HS. rewrite J. now destruct w.
Qed.

Lemma read_not_write : forall inst w, instance_name inst -> plain (w_hash w) ->
  write_FromString (read_ToString inst w) = None.
Proof.
  intros inst w HI HP. destruct (read_named inst w HI HP) as (parts & E & J & K).
  unfold write_FromString. rewrite E, find_forbidden; auto using uploads_keyword. discriminate.
Qed.

Lemma write_not_read : forall inst uuid w, instance_name inst -> plain uuid -> plain (w_hash w) ->
  read_FromString (write_ToString inst uuid w) = None.
Proof.
  intros inst uuid w HI HU HP. destruct (write_named inst uuid w HI HU HP) as (parts & E & J & K).
  unfold read_FromString. rewrite E, find_forbidden; auto using blobs_keyword. discriminate.
Qed.

(** Hashes of digests are plain. *)
Lemma hex_no_slash : forall h, IsHexString h = true -> ~ In "/"%char (list_ascii_of_string h).
Proof.
  induction h as [|c h IH]; cbn; intros H X; [exact X|].
  destruct (xdigit c) eqn:D; [|discriminate H]. destruct X as [->|X]; [discriminate D|]. exact (IH H X).
Qed.

Lemma digest_plain : forall t d, wellformed t d -> plain (w_hash (ToBazel t d)).
Proof.
  intros t d [V _]. assert (L := valid_length _ _ _ V). unfold valid_input in V.
  apply andb_true_iff in V. destruct V as [_ V]. apply hex_no_slash in V.
  unfold ToBazel. cbn [w_hash]. destruct (IsNative t).
  - unfold Prefix. split; [now destruct (d_tree d)|].
    destruct (d_tree d); cbn; intros [E|[E|E]]; try discriminate; auto.
  - split; [|exact V]. intros E. rewrite E in L. now destruct t.
Qed.

Lemma to_inj : forall t a b, wellformed t a -> wellformed t b -> ToBazel t a = ToBazel t b -> a = b.
Proof.
  intros t a b [A _] [B _] E. apply from_to in A. apply from_to in B. rewrite E in A. congruence.
Qed.
