(** C86, C87: what a server answers, and what is in its storage. *)
From Coq Require Import String Ascii NArith List Bool Arith Lia.
From Verif Require Import Hex.Model Describe.Model Remote.Names Remote.NamesSpec Remote.NamesProofs Remote.Stream Remote.StreamSpec
  Remote.StreamProofs Remote.StreamProps Remote.Client Remote.ClientSpec Remote.ClientProofs Remote.ClientProps.
From Verif Require Import GitTree.Model Storage.Model Storage.Spec Storage.Facts Storage.Props Remote.Server Remote.ServerSpec
  Remote.ServerProofs Remote.ServerMore.
Import ListNotations.
Local Open Scope string_scope.
Local Open Scope list_scope.
Local Open Scope nat_scope.

(** ** C86 *)

(** C86. What a server confirmed since the last garbage collection is found by
    lookups in its storage, and so is everything below it if it is a tree,
    until there have been as many garbage collections as there are
    generations. *)
Theorem C86_confirmed : forall S n first since acts2 acts3 d t t' d' x r',
  sane S -> confirmed S n first since d -> IsTreeObject t = d_tree d ->
  let acts := first ++ since ++ acts2 ++ Start (lookup_op t' d' x) :: acts3 in
  history S n acts -> collections since + collections acts2 < n -> no_drop (since ++ acts2) -> no_collection acts3 ->
  reachable S (log (disk (reached S n acts))) t (d_hash d) t' d' ->
  returned (reached S n acts) (length (threads (reached S n (first ++ since ++ acts2)))) (lookup_op t' d' x) r' ->
  exists data, r' = ABytes (Some data) /\ hash_for S (IsTreeObject t') data = d'.
Proof.
  intros S n first since acts2 acts3 d t t' d' x r' S0 (a & b & th & o & r & t0 & -> & R & T & IT) TT acts HY CO ND NC RE RT.
  assert (E : acts = (first ++ a) ++ (b ++ acts2) ++ Start (lookup_op t' d' x) :: acts3)
    by (unfold acts; now rewrite <- !app_assoc).
  assert (E2 : first ++ (a ++ b) ++ acts2 = (first ++ a) ++ b ++ acts2) by now rewrite <- !app_assoc.
  rewrite E2, E in RT. rewrite E in HY, RE.
  destruct (C26_survives S n (first ++ a) (b ++ acts2) acts3 th o r t0 (d_hash d) t' d' x r') as (data & -> & Hd); auto.
  - rewrite !collections_app in CO. rewrite collections_app. lia.
  - intros y Hy. apply ND. apply in_app_or in Hy. apply in_or_app. destruct Hy as [Hy|Hy]; [left|now right].
    apply in_or_app. now right.
  - unfold reachable in *. rewrite IT, <- TT. exact RE.
  - exists data. split; [reflexivity|exact Hd].
Qed.
Print Assumptions C86_confirmed.

(** C86. A server says that an object is not missing, or that it was stored,
    only if it is in its storage, for all requests, whatever others do with
    the storage meanwhile and wherever the connection breaks. It answers for
    the objects asked for. *)
Theorem C86_truthful : forall S n k inst,
  truthful world (server S n k inst) (in_storage S n) GitSHA1 /\ answers_what_was_asked world (server S n k inst).
Proof. intros S n k inst. split; [apply server_truthful|apply server_answers]. Qed.
Print Assumptions C86_truthful.

(** C86. A client that was told that an upload succeeded finds the objects,
    and everything below them, in the storage of the server; those it had the
    content of with this content, unless the hash function collides. *)
Theorem C86_uploaded : forall S n k CS inst uuid readable fuel skip blobs w w' b acts2 acts3 t t' d' x r',
  sane S -> hashing CS = GitSHA1 -> instance_name inst -> plain uuid ->
  (forall b, In b blobs -> wellformed GitSHA1 (b_digest b)) ->
  UploadBlobs world CS (server S n k inst) inst uuid readable fuel skip blobs w = (Some true, w') ->
  In b blobs -> IsTreeObject t = d_tree (b_digest b) ->
  let acts := past w' ++ acts2 ++ Start (lookup_op t' d' x) :: acts3 in
  history S n acts -> collections (since w') + collections acts2 < n -> no_drop (since w' ++ acts2) ->
  no_collection acts3 ->
  reachable S (log (disk (reached S n acts))) t (d_hash (b_digest b)) t' d' ->
  returned (reached S n acts) (length (threads (reached S n (past w' ++ acts2)))) (lookup_op t' d' x) r' ->
  exists data, r' = ABytes (Some data) /\ hash_for S (IsTreeObject t') data = d' /\
    (t' = t -> d' = d_hash (b_digest b) -> hash CS = hash_for S -> intact CS b ->
       data = b_data b \/ (data <> b_data b /\ hash_for S (d_tree (b_digest b)) data = hash_for S (d_tree (b_digest b)) (b_data b))).
Proof.
  intros S n k CS inst uuid readable fuel skip blobs w w' b acts2 acts3 t t' d' x r' S0 HC HI HU WF E Hb TT acts HY CO ND NC RE RT.
  assert (HT : truthful world (server S n k inst) (in_storage S n) (hashing CS)) by (rewrite HC; apply server_truthful).
  assert (WF' : forall b, In b blobs -> wellformed (hashing CS) (b_digest b)) by (rewrite HC; exact WF).
  destruct (C84_uploaded world CS (server S n k inst) (in_storage S n) inst uuid readable fuel skip blobs w (Some true) w'
    HT (server_answers S n k inst) HI HU WF' E) as [UP _].
  destruct (UP eq_refl b Hb) as (d & N & CF). clear UP E.
  assert (SM : d_hash d = d_hash (b_digest b) /\ d_tree d = d_tree (b_digest b)).
  { assert (FT := C81_digest GitSHA1 (b_digest b) (WF b Hb)). unfold names in N. rewrite HC in N. clear - FT N.
    exact (same_names GitSHA1 _ _ _ _ N FT). }
  destruct SM as [SM1 SM2].
  unfold past in acts. unfold acts in *. clear acts. rewrite <- app_assoc in HY, RE, RT.
  replace (past w' ++ acts2) with (start w' ++ since w' ++ acts2) in RT by (unfold past; now rewrite <- app_assoc).
  rewrite <- SM1 in RE. rewrite <- SM2 in TT.
  destruct (C86_confirmed S n _ _ acts2 acts3 d t t' d' x r' S0 CF TT HY CO ND NC RE RT) as (data & -> & Hd).
  exists data. split; [reflexivity|]. split; [exact Hd|]. intros -> -> HH (_ & [DO _] & _).
  destruct (string_dec data (b_data b)) as [->|NE]; [now left|right]. split; [exact NE|].
  rewrite TT, SM2 in Hd. rewrite Hd, <- HH. congruence.
Qed.
Print Assumptions C86_uploaded.

(** C86. Conversely, a server stores what it is sent and says so, if the
    contents have the hashes and sizes announced, and what the trees name is in
    the youngest generation of the storage or comes before them in the
    request. *)
Theorem C86_accepts : forall S n q acts a acts',
  sane S -> handles S n (server_BatchUpdateBlobs q []) acts a acts' -> history S n acts' ->
  valid_upload S (avail (gen_at (disk (reached S n acts)) 0)) q ->
  a = inl (map (fun e => (fst e, OK)) q).
Proof. intros S n q acts a acts' S0 H HY V. exact (update_complete S n S0 q [] acts a acts' H HY V). Qed.
Print Assumptions C86_accepts.

(** C86. A server says that contents were stored only if each of them has the
    hash and the size announced. *)
Theorem C86_content : forall S n q acts l acts' e,
  sane S -> handles S n (server_BatchUpdateBlobs q []) acts (inl l) acts' -> history S n acts' -> In e q ->
  exists d, FromBazel GitSHA1 (fst e) = Some d /\ hash_for S (d_tree d) (snd e) = d_hash d /\
    (d_size d = 0%N \/ d_size d = N.of_nat (String.length (snd e))).
Proof. intros S n q acts l acts' e S0 H HY He. exact (update_content S n S0 q [] acts l acts' e H HY He). Qed.
Print Assumptions C86_content.

(** ** C87 *)

(** C87. The answers to a request for objects are about the objects asked for,
    in this order; what is sent has the hash asked for; and everything is sent
    that was confirmed, while there were fewer garbage collections than there
    are generations. *)
Theorem C87_read : forall S n q acts l acts',
  sane S -> handles S n (server_BatchReadBlobs q []) acts (inl l) acts' -> history S n acts' ->
  Forall2 (fun x e => fst (fst e) = x /\ exists d, FromBazel GitSHA1 x = Some d /\
    (snd (fst e) = OK -> hash_for S (d_tree d) (snd e) = d_hash d) /\ (still_there S n acts d -> snd (fst e) = OK)) q l.
Proof.
  intros S n q acts l acts' S0 H HY. destruct (read_handled S n S0 q [] acts _ acts' H HY l eq_refl) as (m & -> & F). exact F.
Qed.
Print Assumptions C87_read.

(** C87. The same for objects sent in pieces, wherever the connection breaks:
    what the client considers complete has the hash it asked for, even if the
    client does not check it. *)
Theorem C87_stream : forall S n k inst d acts a acts' cut x,
  sane S -> 0 < k -> instance_name inst -> wellformed GitSHA1 d -> network_fault cut ->
  handles S n (server_Read k (read_ToString inst (ToBazel GitSHA1 d)) 0) acts a acts' -> history S n acts' ->
  (client_dump (deliver cut a) = (x, true) -> hash_for S (d_tree d) x = d_hash d) /\
  (still_there S n acts d -> exists data, client_dump (deliver None a) = (data, true)).
Proof.
  intros S n k inst d acts a acts' cut x S0 K HI HD HN H HY.
  destruct (C81_read_name GitSHA1 inst d HI HD) as (q & Q1 & _ & Q2).
  destruct (stream_handled S n S0 k _ 0 acts a acts' q d Q1 Q2 H HY) as [(data & D1 & ->)|[-> D2]].
  - split.
    + intros E. destruct (C82_download k data (fun _ => true) cut K HN) as [_ X]. now rewrite (X x E).
    + intros _. exists data.
      destruct (C82_download_complete k data (fun _ => true) (hash_for S) d K (fun _ => eq_refl) D1) as [_ X]. exact X.
  - split; [|now intros X].
    intros E. destruct cut as [[i c]|]; cbn in E; [|discriminate E]. rewrite firstn_nil in E. cbn in HN.
    unfold client_dump in E. destruct c; try discriminate E. exfalso. exact (HN i OK eq_refl eq_refl).
Qed.
Print Assumptions C87_stream.

(** C87. An object that was confirmed is not reported missing, while there were
    fewer garbage collections than there are generations. *)
Theorem C87_found : forall S n q acts l acts' x d,
  sane S -> handles S n (server_FindMissingBlobs q []) acts (inl l) acts' -> history S n acts' ->
  FromBazel GitSHA1 x = Some d -> still_there S n acts d -> ~ In x l.
Proof.
  intros S n q acts l acts' x d S0 H HY FB ST HI.
  destruct (find_complete S n S0 q [] acts _ acts' H HY) as (m & E & F). injection E as ->.
  exact (F x HI d FB ST).
Qed.
Print Assumptions C87_found.

(** C87. The chunks an object was split into can be spliced to this object
    again, while there were fewer garbage collections than there are
    generations. *)
Theorem C87_split_splice : forall S n x d acts chunks acts1 acts2 a acts',
  sane S -> (forall k b, valid_input GitSHA1 (cfg_hash S k b) false = true) ->
  FromBazel GitSHA1 x = Some d ->
  handles S n (server_SplitBlob x) acts (inl chunks) acts1 ->
  collections acts2 < n -> no_drop acts2 ->
  handles S n (server_SpliceBlob x chunks) (acts1 ++ acts2) a acts' -> history S n acts' ->
  a = inl (ToBazel GitSHA1 (mkDigest (d_hash d) (d_tree d) 0)) /\
  exists data, hash_for S (d_tree d) data = d_hash d /\
    chunks = map (fun c => ToBazel GitSHA1 (mkDigest (hash_for S false c) false 0)) (cfg_chunker S data).
Proof.
  intros S n x d acts chunks acts1 acts2 a acts' S0 VH FB H1 CO ND H2 HY.
  exact (split_splice S n S0 VH x d acts chunks acts1 acts2 a acts' FB H1 CO ND H2 HY).
Qed.
Print Assumptions C87_split_splice.

(** C87. All artifacts of a cached result a server sends are confirmed to be in
    its storage. *)
Theorem C87_cached : forall S n x acts refs acts',
  handles S n (server_GetActionResult x) acts (inl refs) acts' ->
  exists since, acts' = acts ++ since /\
    forall t i size, In (t, i) refs -> confirmed S n acts since (mkDigest i (IsTreeObject t) size).
Proof.
  intros S n x acts refs acts' H. unfold server_GetActionResult in H.
  destruct (FromBazel GitSHA1 x) as [d|]; [|inversion H].
  inversion H as [|o k acts0 others r a acts0' NC R H1]; subst. exists (Start (OCachedResult (d_hash d)) :: others).
  destruct r as [v|v|v|v|v|v]; try (inversion H1; fail). destruct v; inversion H1; subst. split; [reflexivity|].
  intros t i size Hi. exists (Start (OCachedResult (d_hash d)) :: others), []. eexists. eexists. eexists. exists t.
  split; [now rewrite app_nil_r|]. split; [exact R|]. split; [exact Hi|reflexivity].
Qed.
Print Assumptions C87_cached.

(** ** Witnesses *)

(** A configuration where hashes are hexadecimal: the characters of the content,
    filled up. *)
Definition nibble (n : nat) : ascii := nth n (list_ascii_of_string "0123456789abcdef") "0"%char.
Fixpoint filled_up (k : nat) (b : string) : string :=
  match k, b with
  | 0, _ => ""
  | Datatypes.S k, EmptyString => String "f" (filled_up k "")
  | Datatypes.S k, String c r => String (nibble (nat_of_ascii c mod 16)) (filled_up k r)
  end.
Definition ex_config : config := {|
  cfg_hash := fun k b => String (match k with KBlob => "b" | KTree => "d" end)%char (filled_up 39 b);
  cfg_chunker := fun b => map (fun c => String c "") (list_ascii_of_string b);
  cfg_parse_tree := fun b =>
    Some (map (fun c => (String "b" (filled_up 39 (String c "")), (File, []))) (list_ascii_of_string b));
  cfg_parse_action := fun _ => None;
  cfg_parse_target := fun _ => None;
  cfg_valid_name := fun _ => true;
  cfg_fuel := 60
|}.
Definition ex_setup3 : setup := mkSetup GitSHA1 (hash_for ex_config) (fun es => length es) 3 8 2 4 20.
Definition ex_blob3 (tree : bool) (data : string) : blob :=
  mkBlob (mkDigest (hash_for ex_config tree data) tree (N.of_nat (String.length data))) false (MemorySource data).
Definition calm : circumstance := mkCircumstance [] None (fun _ => true).
Definition steps (t : nat) : list action := repeat (Step t true) 40.
(** The answer to the first request is lost. *)
Definition ex_world : world :=
  mkWorld [] [] [mkCircumstance [] (Some (0, UNAVAILABLE)) (fun _ => true); calm; calm; calm; calm; calm]
    (map steps (seq 0 20)).
Definition ex_tree : digest := b_digest (ex_blob3 true "ab").
Definition ex_blobs : list blob :=
  [ex_blob3 false "a"; ex_blob3 false "b"; ex_blob3 true "ab"; ex_blob3 false "abcdefghijkl"].
Definition ex_after : world :=
  snd (UploadBlobs world ex_setup3 (server ex_config 2 4 "main") "main" "u1" (fun _ => true) 9 false ex_blobs ex_world).
Definition ex_later : list action :=
  past ex_after ++ [Collect false false [] [] [] (repeat true 60)] ++
  Start (lookup_op File (hash_for ex_config false "a") false) :: steps 0.

Lemma ex_sane : sane ex_config.
Proof.
  split; [| |reflexivity].
  - intros b. cbn. induction b as [|c b IH]; cbn; [reflexivity|now rewrite IH].
  - intros b c. cbn. intros H. apply in_map_iff in H. destruct H as (x & <- & _). reflexivity.
Qed.
Definition harmless (a : action) : bool :=
  match a with
  | Start (OStoreBlob _ _) | Start (OAddTree _ _) | Start (OReadBlob _ _) | Start (OReadTree _)
  | Start (OSplitBlob _) | Start (OSpliceBlob _ _ _) => true
  | Start _ => false
  | Step _ ok => ok
  | Collect _ _ _ _ _ oks => forallb (fun x => x) oks
  end.
Lemma harmless_acts : forall C acts Σ, forallb harmless acts = true ->
  (forall a, In a acts -> no_io_error a) /\ contracts C acts Σ.
Proof.
  induction acts as [|a acts IH]; intros Σ H; [split; [intros a []|exact I]|].
  cbn [forallb] in H. apply andb_true_iff in H. destruct H as [H1 H2].
  destruct (IH (perform C Σ a) H2) as [A B]. split.
  - intros x [<-|Hx]; [|auto]. destruct a; cbn; auto. intros ok Hok. cbn in H1. rewrite forallb_forall in H1. exact (H1 ok Hok).
  - split; [|exact B]. destruct a as [o| |]; auto. destruct o; cbn in *; auto; discriminate H1.
Qed.
Lemma ex_log : log (disk (reached ex_config 2 ex_later)) = [(KBlob, "a"); (KTree, "ab"); (KBlob, "b"); (KBlob, "a"); (KBlob, "abcdefghijkl")].
Proof. vm_compute. reflexivity. Qed.
Lemma ex_collision : no_collision (cfg_hash ex_config) [(KBlob, "a"); (KTree, "ab"); (KBlob, "b"); (KBlob, "a"); (KBlob, "abcdefghijkl")].
Proof.
  intros k a k' b Ha Hb. cbn [In] in Ha, Hb.
  repeat (destruct Ha as [Ha|Ha]; [injection Ha as <- <-|]); try contradiction;
    repeat (destruct Hb as [Hb|Hb]; [injection Hb as <- <-|]); try contradiction;
    vm_compute; intros E; try discriminate E; auto.
Qed.
Lemma ex_past : forall acts, forallb harmless acts = true ->
  log (disk (reached ex_config 2 acts)) = [(KBlob, "a"); (KTree, "ab"); (KBlob, "b"); (KBlob, "a"); (KBlob, "abcdefghijkl")] ->
  history ex_config 2 acts.
Proof.
  intros acts H L. destruct (harmless_acts ex_config acts (fresh 2) H) as [A B]. unfold reached in L.
  split; [lia|]. split; [exact A|]. split; [exact B|]. rewrite L. split; [exact ex_collision|cbn; lia].
Qed.
Lemma ex_history : history ex_config 2 ex_later.
Proof. apply ex_past; [vm_compute; reflexivity|exact ex_log]. Qed.

(** An upload where the answer to the first request is lost; then a garbage
    collection, and a lookup of a file below the tree that was uploaded. *)
Example C86_nonvacuous :
  sane ex_config /\ history ex_config 2 ex_later /\
  UploadBlobs world ex_setup3 (server ex_config 2 4 "main") "main" "u1" (fun _ => true) 9 false ex_blobs ex_world =
    (Some true, ex_after) /\
  (forall b, In b ex_blobs -> intact ex_setup3 b) /\
  collections (since ex_after) = 0 /\ no_drop (since ex_after ++ [Collect false false [] [] [] (repeat true 60)]) /\
  reachable ex_config (log (disk (reached ex_config 2 ex_later))) Tree (d_hash ex_tree) File (hash_for ex_config false "a") /\
  returned (reached ex_config 2 ex_later) 0 (lookup_op File (hash_for ex_config false "a") false) (ABytes (Some "a")) /\
  length (threads (reached ex_config 2 (past ex_after ++ [Collect false false [] [] [] (repeat true 60)]))) = 0 /\
  valid_upload ex_config (fun _ _ => False)
    (map (fun b => (ToBazel GitSHA1 (b_digest b), b_data b)) (firstn 3 ex_blobs)).
Proof.
  split; [exact ex_sane|]. split; [exact ex_history|].
  split; [unfold ex_after; vm_compute; reflexivity|].
  split; [intros b [<-|[<-|[<-|[<-|[]]]]]; repeat split; vm_compute; reflexivity|].
  split; [vm_compute; reflexivity|]. split.
  { intros a Ha. apply in_app_or in Ha. destruct Ha as [Ha|[<-|[]]]; [|intros X; discriminate X].
    assert (F : forallb (fun a => negb (is_collect a)) (since ex_after) = true) by (vm_compute; reflexivity).
    rewrite forallb_forall in F. specialize (F a Ha). clear Ha. destruct a; [intros [] | intros [] | discriminate F]. }
  split; [right; split; [reflexivity|]; exists "ab"; rewrite ex_log; split; [right; now left|]; split; [reflexivity|];
    eapply below_entry; [reflexivity|now left|now left]|].
  split; [vm_compute; reflexivity|]. split; [vm_compute; reflexivity|].
  cbn [valid_upload map firstn ex_blobs]. repeat split.
  - exists (b_digest (ex_blob3 false "a")). repeat split; try (vm_compute; reflexivity); [right; vm_compute; reflexivity|discriminate].
  - exists (b_digest (ex_blob3 false "b")). repeat split; try (vm_compute; reflexivity); [right; vm_compute; reflexivity|discriminate].
  - exists (b_digest (ex_blob3 true "ab")). repeat split; try (vm_compute; reflexivity); [right; vm_compute; reflexivity|].
    intros _. eexists. split; [vm_compute; reflexivity|]. intros i t0 ts t Hi Ht.
    destruct Hi as [Hi|[Hi|[]]]; injection Hi as <- <- <-; destruct Ht as [<-|[]].
    + left. right. exists (b_digest (ex_blob3 false "a")). repeat split; vm_compute; reflexivity.
    + right. exists (b_digest (ex_blob3 false "b")). repeat split; vm_compute; reflexivity.
Qed.

(** After the upload and a garbage collection: two blobs are asked for, one of
    them unknown; the blob sent in pieces is split and spliced. *)
Definition ex_old : world :=
  mkWorld [] (past ex_after ++ [Collect false false [] [] [] (repeat true 60)]) []
    (map (fun t => repeat (Step t true) 150) (seq 0 9)).
Definition ex_wire (data : string) : wire_digest := ToBazel GitSHA1 (b_digest (ex_blob3 false data)).
Definition ex_read := run_plan ex_config 2 (server_BatchReadBlobs [ex_wire "a"; ex_wire "c"] []) ex_old.
Definition ex_split := run_plan ex_config 2 (server_SplitBlob (ex_wire "abcdefghijkl")) ex_old.
Definition ex_chunks : list wire_digest :=
  map (fun c => ToBazel GitSHA1 (mkDigest (hash_for ex_config false c) false 0))
    (cfg_chunker ex_config "abcdefghijkl").
Definition ex_splice :=
  run_plan ex_config 2 (server_SpliceBlob (ex_wire "abcdefghijkl") ex_chunks) (snd ex_split).
Lemma ex_old_past : past ex_old = past ex_after ++ [Collect false false [] [] [] (repeat true 60)].
Proof. unfold past at 1. unfold ex_old. cbn [start since]. apply app_nil_l. Qed.
Lemma handled_by {A} : forall C n (p : plan A) w a w', run_plan C n p w = (Some a, w') ->
  handles C n p (past w) a (past w').
Proof. intros C n p w a w' E. destruct (run_handles C n p w _ w' E) as (_ & _ & H). now apply H. Qed.
Lemma ex_read_history : history ex_config 2 (past (snd ex_read)).
Proof. apply ex_past; vm_compute; reflexivity. Qed.
Lemma nibble_hex : forall c, xdigit (nibble (nat_of_ascii c mod 16)) <> None.
Proof.
  intros c. assert (X := Nat.mod_upper_bound (nat_of_ascii c) 16 ltac:(lia)).
  generalize dependent (nat_of_ascii c mod 16). intros m X.
  do 16 (destruct m as [|m]; [vm_compute; discriminate|]). lia.
Qed.
Lemma filled_up_hex : forall j s, String.length (filled_up j s) = j /\ IsHexString (filled_up j s) = true.
Proof.
  induction j as [|j IH]; intros s; [split; reflexivity|]. destruct s as [|c s]; cbn [filled_up String.length IsHexString].
  - destruct (IH "") as [-> ->]. split; reflexivity.
  - destruct (IH s) as [-> ->]. split; [reflexivity|]. assert (X := nibble_hex c).
    destruct (xdigit (nibble (nat_of_ascii c mod 16))); congruence.
Qed.
Lemma ex_valid : forall k b, valid_input GitSHA1 (cfg_hash ex_config k b) false = true.
Proof.
  intros k b. unfold valid_input, ex_config, cfg_hash. destruct (filled_up_hex 39 b) as [L H].
  cbn [String.length IsHexString]. rewrite L, H. destruct k; reflexivity.
Qed.
Example C87_nonvacuous :
  handles ex_config 2 (server_BatchReadBlobs [ex_wire "a"; ex_wire "c"] []) (past ex_old)
    (inl [(ex_wire "a", OK, "a"); (ex_wire "c", Other 5, "")]) (past (snd ex_read)) /\
  history ex_config 2 (past (snd ex_read)) /\
  still_there ex_config 2 (past ex_old) (b_digest (ex_blob3 false "a")) /\
  handles ex_config 2 (server_SplitBlob (ex_wire "abcdefghijkl")) (past ex_old) (inl ex_chunks) (past (snd ex_split)) /\
  handles ex_config 2 (server_SpliceBlob (ex_wire "abcdefghijkl") ex_chunks) (past (snd ex_split))
    (inl (ToBazel GitSHA1 (mkDigest (hash_for ex_config false "abcdefghijkl") false 0))) (past (snd ex_splice)) /\
  (forall k b, valid_input GitSHA1 (cfg_hash ex_config k b) false = true).
Proof.
  split; [apply handled_by; vm_compute; reflexivity|]. split; [exact ex_read_history|]. split.
  { rewrite ex_old_past. exists [], (past ex_after ++ [Collect false false [] [] [] (repeat true 60)]).
    split; [symmetry; apply app_nil_l|]. split; [|split; [vm_compute; lia|]].
    - exists (past ex_after), [Collect false false [] [] [] (repeat true 60)], 8, (OStoreBlob "a" false),
        (AId (Some (hash_for ex_config false "a"))), File.
      split; [reflexivity|]. split; [vm_compute; reflexivity|]. repeat split.
    - intros a Ha. apply in_app_or in Ha. destruct Ha as [Ha|[<-|[]]]; [|intros X; discriminate X].
      assert (F : forallb (fun a => negb (is_collect a)) (past ex_after) = true) by (vm_compute; reflexivity).
      rewrite forallb_forall in F. specialize (F a Ha). clear Ha. destruct a; [intros [] | intros [] | discriminate F]. }
  split; [apply handled_by; vm_compute; reflexivity|]. split; [apply handled_by; vm_compute; reflexivity|].
  exact ex_valid.
Qed.
