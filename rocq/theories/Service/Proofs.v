(** Proofs about remote execution, in native mode. *)
From Coq Require Import String Ascii List Bool Arith NArith ZArith Permutation Lia.
From Verif Require Import Common.Strs Path.Model Describe.Model Executor.Wire Executor.Local Executor.LocalSpec Executor.LocalProofs
  Rehash.Directory Rehash.DirectoryProofs Remote.Names Remote.NamesSpec Remote.NamesProofs Incremental.Model Incremental.Proofs
  Service.Messages Service.MessagesProofs Service.Model Service.Spec.
Import ListNotations.
Local Open Scope string_scope.
Local Open Scope list_scope.

Lemma work_refl a : same_work a a.
Proof. repeat split. Qed.
Lemma work_sym a b : same_work a b -> same_work b a.
Proof. unfold same_work. intuition. Qed.
Lemma work_trans a b c : same_work a b -> same_work b c -> same_work a c.
Proof. unfold same_work. intuition congruence. Qed.
Lemma ran_work t a b w r ok : same_work a b -> ran t a w r ok -> ran t b w r ok.
Proof.
  intros (_ & C & _ & _ & F & D & P & M) (code & E & N & R). exists code. split; [exact E|]. split; [congruence|].
  unfold CollectAndStoreOutputs in *. now rewrite <- M, <- F, <- D, <- P.
Qed.

Lemma sort_sort l : sort (sort l) = sort l.
Proof. symmetry. apply sort_unique, sort_perm. Qed.

Lemma insert_all_lookup (l : list (string * string)) : forall m k, sorted_keys l ->
  alookup k (fold_left (fun m (x : string * string) => ainsert (fst x) (snd x) m) l m) = match alookup k l with Some v => Some v | None => alookup k m end.
Proof.
  induction l as [|[x v] l IH]; intros m k S; cbn [fold_left fst snd alookup]; [reflexivity|].
  inversion S as [|? ? S' F]; subst. rewrite IH by exact S'. rewrite ainsert_lookup. destruct (String.eqb_spec k x) as [->|]; [|reflexivity].
  destruct (alookup x l) as [u|] eqn:L; [|reflexivity]. apply alookup_In_pair in L. rewrite Forall_forall in F. specialize (F _ L).
  unfold key_lt in F. cbn in F. destruct (str_lt_asym _ _ F F).
Qed.
Lemma insert_all_sorted (l : list (string * string)) : forall m, sorted_keys m -> sorted_keys (fold_left (fun m (x : string * string) => ainsert (fst x) (snd x) m) l m).
Proof. induction l as [|x l IH]; intros m S; cbn [fold_left]; [exact S|]. apply IH. now apply ainsert_sorted. Qed.
Lemma insert_all_id (l : list (string * string)) : sorted_keys l -> fold_left (fun m (x : string * string) => ainsert (fst x) (snd x) m) l [] = l.
Proof.
  intros S. apply sorted_ext; [apply insert_all_sorted; constructor|exact S|]. intros k. rewrite insert_all_lookup by exact S. now destruct (alookup k l).
Qed.
Lemma insert_all_good utf8 (l : list (string * string)) : forall m, good_pairs utf8 l -> good_pairs utf8 m ->
  good_pairs utf8 (fold_left (fun m (x : string * string) => ainsert (fst x) (snd x) m) l m).
Proof.
  induction l as [|[x v] l IH]; intros m G M; cbn [fold_left fst snd]; [exact M|]. inversion G as [|? ? [G1 G2] G']; subst. apply IH; [exact G'|].
  clear - G1 G2 M. induction m as [|[k u] m IHm]; cbn [ainsert]; [repeat constructor; assumption|]. inversion M; subst.
  destruct (str_cmp x k); repeat constructor; auto; try (now apply IHm); try apply H1; assumption.
Qed.

Section Decode.
Variable hash : string -> string.
Variable utf8 : string -> bool.
Variable text : string -> Prop.
Notation t := GitSHA1.
Hypothesis GH : good_hash hash t utf8 text.

Lemma wire_small c d : parse_wire utf8 c = Some d -> (w_size d < 2 ^ 64)%N.
Proof.
  unfold parse_wire. destruct (parse_message c) as [fs|]; [|discriminate]. unfold checked. destruct (forallb _ _); [|discriminate].
  intros E. injection E as <-. cbn [w_size]. apply N.mod_lt. discriminate.
Qed.
Lemma from_small w d : FromBazel t w = Some d -> valid_input t (d_hash d) (d_tree d) = true /\ d_size d = w_size w.
Proof.
  unfold FromBazel. match goal with |- (if ?b then _ else _) = _ -> _ => destruct b eqn:V; [|discriminate] end.
  intros E. injection E as <-. cbn [d_hash d_tree d_size]. auto.
Qed.

(** What an action becomes at the server. *)
Definition served (a : local_action) : local_action :=
  mkAction (a_root a) (a_command a) (a_cwd a) (a_files a) (a_dirs a) (a_paths a) (a_env a) [] kDefaultTimeout (a_mode a).
(** The actions there are: of the client, and of the server. *)
Definition usual (a : local_action) : Prop :=
  (exists root command cwd files dirs env props timeout legacy, a = CreateAction t root command cwd files dirs env props timeout legacy) \/
  (exists root command cwd paths env props timeout, paths <> [] /\ a = new_action_paths root command cwd paths env props timeout).

(** The text [c] of an action and that of its command are read as the local action [a]. *)
Definition reads (c : string) (nc : bool) (f : cache_flag) (a : local_action) : Prop :=
  exists am d cc cm, ParseAction utf8 c = Some am /\ FromBazel t (am_command am) = Some d /\ text cc /\ hash cc = d_hash d /\
    ParseCommand utf8 cc = Some cm /\ ToIExecutionAction t am cm = Some (f, a) /\ am_no_cache am = nc.

Lemma digest_small a x id : CreateActionDigest hash t a x = Some id -> small (command_message a) /\ small (action_message hash t a x).
Proof.
  unfold CreateActionDigest, CreateActionDigestFromCommandLine, SerializeMessage, action_message, small.
  change (command_text (request_of a x)) with (command_message a). change (blob_digest hash (command_message a)) with (mkDigest (hash (command_message a)) false (N.of_nat (String.length (command_message a)))).
  destruct (strlen (command_message a) <? 2 ^ 31)%N eqn:S1; [|discriminate].
  match goal with |- context [(strlen ?m <? 2 ^ 31)%N] => destruct (strlen m <? 2 ^ 31)%N eqn:S2 end; [|discriminate].
  apply N.ltb_lt in S1, S2. auto.
Qed.
Lemma reads_self a x id : usual a -> expressible t utf8 a -> CreateActionDigest hash t a x = Some id -> text (command_message a) ->
  reads (action_message hash t a x) x (if x then DoNotCacheOutput else CacheOutput) (served a) /\ d_hash id = hash (action_message hash t a x).
Proof.
  intros US (GC & SE & VR & SR & _) D TC. pose proof (create_digest_some _ _ _ _ _ D) as ->. split; [|reflexivity].
  destruct GH as (_ & HV & HU). destruct (digest_small _ _ _ D) as [S1 S2].
  assert (S3 : (strlen (command_message a) < big)%N) by (eapply N.lt_trans; [exact S1|reflexivity]).
  exists (mkActionMsg (ToBazel t (blob_digest hash (command_message a))) (ToBazel t (a_root a)) x), (blob_digest hash (command_message a)), (command_message a),
    (mkCommand (a_command a) (a_env a) (a_files a) (a_dirs a) (a_cwd a) (a_paths a)).
  split; [|split; [|split; [exact TC|split; [reflexivity|split; [|split; [|reflexivity]]]]]].
  - unfold action_message. rewrite parse_action_ok; try reflexivity.
    + apply HU. apply HV.
    + exact S3.
    + apply HU. exact VR.
    + exact SR.
    + apply GC.
    + exact S2.
  - apply from_to. apply HV.
  - unfold command_message. rewrite parse_command_ok by assumption. reflexivity.
  - unfold ToIExecutionAction. cbn [am_root am_no_cache cm_args cm_env cm_files cm_dirs cm_cwd cm_paths]. rewrite from_to by exact VR.
    rewrite insert_all_id by exact SE. unfold served.
    destruct US as [(root & command & cwd & files & dirs & env & props & timeout & legacy & ->)|(root & command & cwd & paths & env & props & timeout & NE & ->)];
      unfold CreateAction, new_action, new_action_paths; cbn [negb a_root a_command a_cwd a_files a_dirs a_paths a_env a_mode].
    + now rewrite !sort_sort.
    + destruct (sort paths) as [|p ps] eqn:E; [destruct NE; now apply sort_nil|]. rewrite <- E. now rewrite sort_sort.
Qed.

Lemma pairs_good l : forall env, parse_all (parse_pair utf8) l = Some env -> good_pairs utf8 env.
Proof.
  induction l as [|s l IH]; intros env; cbn [parse_all]; [intros E; injection E as <-; constructor|].
  destruct (parse_pair utf8 s) as [p|] eqn:P; [|discriminate]. destruct (parse_all _ l) as [e|]; [|discriminate]. intros E. injection E as <-.
  constructor; [|exact (IH _ eq_refl)]. revert P. unfold parse_pair. destruct (parse_message s) as [fs|]; [|discriminate]. unfold checked. cbn [forallb].
  destruct (utf8 (get_string 1 fs)) eqn:U1; [|discriminate]. destruct (utf8 (get_string 2 fs)) eqn:U2; [|discriminate]. intros E. injection E as <-. split; assumption.
Qed.
Lemma command_good cc cm : ParseCommand utf8 cc = Some cm ->
  Forall (good_string utf8) (cm_args cm) /\ good_pairs utf8 (cm_env cm) /\ Forall (good_string utf8) (cm_files cm) /\ Forall (good_string utf8) (cm_dirs cm) /\
  utf8 (cm_cwd cm) = true /\ Forall (good_string utf8) (cm_paths cm).
Proof.
  unfold ParseCommand. destruct (parse_message cc) as [fs|]; [|discriminate]. destruct (parse_all _ (all_bytes 2 fs)) as [env|] eqn:EV; [|discriminate].
  destruct (parse_platform _ _); [|discriminate]. unfold checked. destruct (forallb _ _) eqn:B; [|discriminate]. intros E. injection E as <-.
  cbn [cm_args cm_env cm_files cm_dirs cm_cwd cm_paths]. rewrite !forallb_app in B. cbn [forallb] in B.
  apply andb_true_iff in B as [B1 B]. apply andb_true_iff in B as [B2 B]. apply andb_true_iff in B as [B3 B]. apply andb_true_iff in B as [B4 B5].
  rewrite andb_true_r in B4. assert (FF : forall l, forallb utf8 l = true -> Forall (good_string utf8) l) by (intros l0 L; apply Forall_forall; now apply forallb_forall).
  repeat split; auto. exact (pairs_good _ _ EV).
Qed.
Lemma sort_forall P l : Forall P l -> Forall P (sort l).
Proof. rewrite !Forall_forall. intros F x I. apply F. exact (proj1 (sort_In x l) I). Qed.

(** What is read is an action that can be expressed. *)
Lemma reads_usual c nc f a : reads c nc f a -> usual a /\ expressible t utf8 a /\ f = if nc then DoNotCacheOutput else CacheOutput.
Proof.
  intros (am & d & cc & cm & PA & FC & _ & _ & PC & TI & <-). unfold ToIExecutionAction in TI. destruct (FromBazel t (am_root am)) as [root|] eqn:FR; [|discriminate].
  destruct (command_good _ _ PC) as (G1 & G2 & G3 & G4 & G5 & G6). destruct (from_small _ _ FR) as [VR SR].
  assert (SZ : (d_size root < 2 ^ 64)%N).
  { rewrite SR. revert PA. unfold ParseAction. destruct (parse_message c) as [fs|]; [|discriminate]. destruct (parse_wire _ (get_message 1 fs)); [|discriminate].
    destruct (parse_wire _ (get_message 2 fs)) as [w0|] eqn:W; [|discriminate]. destruct (parse_message _); [|discriminate]. destruct (parse_platform _ _); [|discriminate].
    intros E. injection E as <-. exact (wire_small _ _ W). }
  assert (SE := insert_all_sorted (cm_env cm) [] ltac:(constructor)). assert (GE := insert_all_good utf8 (cm_env cm) [] G2 ltac:(constructor)).
  destruct (cm_paths cm) as [|p ps] eqn:CP; injection TI as <- <-.
  - split; [left; repeat eexists|]. split; [|reflexivity].
    split; [|split; [exact SE|split; [exact VR|split; [exact SZ|cbn; unfold kDefaultTimeout; lia]]]].
    unfold good_command, request_of, CreateAction, new_action. cbn [q_command q_env q_files q_dirs q_props q_cwd q_paths a_command a_env a_files a_dirs a_props a_cwd a_paths negb].
    repeat split; auto using sort_forall; constructor.
  - split; [right; exists root, (cm_args cm), (cm_cwd cm), (p :: ps); repeat eexists; discriminate|]. split; [|reflexivity].
    split; [|split; [exact SE|split; [exact VR|split; [exact SZ|cbn [a_timeout new_action_paths]; unfold kDefaultTimeout; lia]]]].
    unfold good_command, request_of, new_action_paths. cbn [q_command q_env q_files q_dirs q_props q_cwd q_paths a_command a_env a_files a_dirs a_props a_cwd a_paths].
    repeat split; auto using sort_forall; constructor.
Qed.

Lemma served_work a : same_work a (served a).
Proof. repeat split. Qed.

(** A text is read in one way. *)
Lemma reads_fun c nc f a nc' f' a' : reads c nc f a -> reads c nc' f' a' -> a = a' /\ nc = nc'.
Proof.
  intros (am & d & cc & cm & PA & FC & T & HC & PC & TI & <-) (am' & d' & cc' & cm' & PA' & FC' & T' & HC' & PC' & TI' & <-).
  rewrite PA in PA'. injection PA' as <-. rewrite FC in FC'. injection FC' as <-.
  assert (cc = cc') as <- by (apply (proj1 GH); congruence). rewrite PC in PC'. injection PC' as <-. rewrite TI in TI'. injection TI' as <- <-. auto.
Qed.
End Decode.
