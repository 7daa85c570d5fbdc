(** C131-C133: the order in which places are tried, what is taken from them,
    and how often and when attempts are repeated. *)
From Coq Require Import String NArith List Bool Permutation Lia Arith.
From Verif Require Import Mirrors.Model Mirrors.Spec Mirrors.Proofs.
Import ListNotations.
Open Scope string_scope.
Open Scope list_scope.

(** * C131 *)

(** The local mirrors of the URL come first, in the order given; then the URL
    and its mirrors by preference of their hosts. *)
Theorem C131_order hostname M url mirrors locals hs :
  local_for M url locals -> preferred M hs ->
  exists rest, all_mirrors hostname M url mirrors = locals ++ rest /\
    by_preference hostname hs (url :: mirrors) rest.
Proof.
  intros L P.
  destruct (all_mirrors_eq hostname M url mirrors hs (preferred_found M hs P))
    as (rest & E & B).
  exists rest. now rewrite <- (local_found M url locals L).
Qed.

(** There is only one such order. *)
Theorem C131_determined hostname hs given l1 l2 :
  by_preference hostname hs given l1 -> by_preference hostname hs given l2 -> l1 = l2.
Proof. apply by_preference_unique. Qed.

(** Without a list of local mirrors that consists of strings there are none. *)
Theorem C131_no_local hostname M url mirrors hs :
  (forall m, local_mirrors M = JObject m -> NoDup (map fst m)) ->
  (forall l, ~ local_for M url l) -> preferred M hs ->
  by_preference hostname hs (url :: mirrors) (all_mirrors hostname M url mirrors).
Proof.
  intros ND L P.
  destruct (all_mirrors_eq hostname M url mirrors hs (preferred_found M hs P))
    as (rest & E & B).
  rewrite (local_none M url ND L) in E. cbn [app] in E. now rewrite E.
Qed.

(** One entry that is not a string makes the whole list of preferred hosts be
    ignored. *)
Theorem C131_not_strings hostname M url mirrors locals l v :
  local_for M url locals ->
  preferred_hostnames M = JArray l -> In v l -> (forall s, v <> JString s) ->
  all_mirrors hostname M url mirrors = locals ++ url :: mirrors.
Proof.
  intros L P Hin Hv. unfold all_mirrors. rewrite (local_found M url locals L).
  assert (G : GetPreferredHostnames M = []).
  { unfold GetPreferredHostnames. rewrite P. cbn [items].
    destruct (all_strings l) as [r|] eqn:E; [|reflexivity].
    apply all_strings_some in E. subst l. apply in_map_iff in Hin.
    destruct Hin as (s & Es & _). exfalso. apply (Hv s). now symmetry. }
  now rewrite G.
Qed.

(** The variables to inherit are those of the repository and the additional
    ones that are strings. *)
Theorem C131_inherit M base l r :
  extra_inherit_env M = JArray l -> strings_of l r ->
  GetInheritEnv M base = base ++ r.
Proof.
  intros E H. unfold GetInheritEnv. rewrite E. cbn [items]. f_equal.
  eapply strings_of_det; [apply strings_of_fun|exact H].
Qed.

(** ** A case *)

Definition ex_host (s : string) : option string :=
  if String.eqb s "https://a/x" then Some "a"
  else if String.eqb s "https://b/x" then Some "b"
  else if String.eqb s "https://b/y" then Some "b"
  else if String.eqb s "https://c/x" then Some "c"
  else None.

Definition ex_mirrors : Mirrors :=
  {| local_mirrors :=
       JObject [("https://a/x", JArray [JString "file:///l1"; JString "file:///l2"]);
                ("https://z/x", JArray [JString "file:///l3"])];
     preferred_hostnames := JArray [JString "c"; JString "b"; JString "c"];
     extra_inherit_env := JArray [JString "HOME"; JOther; JString "LANG"] |}.

Example C131_nonvacuous :
  local_for ex_mirrors "https://a/x" ["file:///l1"; "file:///l2"] /\
  preferred ex_mirrors ["c"; "b"; "c"] /\
  all_mirrors ex_host ex_mirrors "https://a/x"
    ["https://b/x"; "/some/path"; "https://c/x"; "https://b/y"] =
  ["file:///l1"; "file:///l2"; "https://c/x"; "https://b/x"; "https://b/y";
   "https://a/x"; "/some/path"] /\
  GetInheritEnv ex_mirrors ["PATH"] = ["PATH"; "HOME"; "LANG"].
Proof.
  split; [|split; [reflexivity|split; vm_compute; reflexivity]].
  eexists. split; [reflexivity|]. split.
  - cbn [map fst]. constructor; [intros [E|[]]; discriminate|].
    constructor; [intros []|constructor].
  - now left.
Qed.

(** * C132 *)

(** Whatever is stored is what the first place that delivered anything
    delivered; and it is the content asked for, unless that was there before. *)
Theorem C132_stored hostname sha256 sha512 hash in_cas download M a d :
  FetchFromNetwork hostname sha256 sha512 hash in_cas download M a = Stored d ->
  first_delivered download (all_mirrors hostname M (a_url a) (a_mirrors a)) d /\
  (in_cas (a_content a) = false -> right_content sha256 sha512 hash a d).
Proof.
  unfold FetchFromNetwork, NetworkFetchWithMirrors.
  destruct (String.eqb (a_url a) ""); [discriminate|].
  assert (S := try_all_spec download (all_mirrors hostname M (a_url a) (a_mirrors a)) []).
  destruct (try_all download _ []) as [d'|t]; [|discriminate].
  unfold right_content.
  destruct (a_sha256 a) as [s|]; [destruct (String.eqb_spec (sha256 d') s) as [E1|]|];
    cbn [negb]; try discriminate;
  (destruct (a_sha512 a) as [u|]; [destruct (String.eqb_spec (sha512 d') u) as [E2|]|];
    cbn [negb]; try discriminate);
  (destruct (in_cas (a_content a)); cbn [orb];
   [intros [= <-]; split; [exact S|discriminate]|]);
  (destruct (String.eqb_spec (hash d') (a_content a)) as [E3|]; [|discriminate]);
  intros [= <-]; (split; [exact S|]); intros _;
  (split; [exact E3|]); split; intros x [= <-]; assumption.
Qed.

(** If it is reported that no place delivered anything, then all places were
    tried, those reported; and conversely. *)
Theorem C132_no_remote hostname sha256 sha512 hash in_cas download M a tried :
  a_url a <> "" ->
  FetchFromNetwork hostname sha256 sha512 hash in_cas download M a = NoRemote tried <->
  tried = all_mirrors hostname M (a_url a) (a_mirrors a) /\
  (forall p, In p tried -> download p = None).
Proof.
  intro NE. unfold FetchFromNetwork, NetworkFetchWithMirrors.
  destruct (String.eqb_spec (a_url a) ""); [contradiction|].
  assert (S := try_all_spec download (all_mirrors hostname M (a_url a) (a_mirrors a)) []).
  split.
  - destruct (try_all download _ []) as [d'|t].
    + repeat match goal with
        |- (if ?b then _ else _) = _ -> _ => destruct b; [discriminate|]
      end.
      destruct (in_cas (a_content a) || String.eqb (hash d') (a_content a)); discriminate.
    + intros [= <-]. destruct S as [-> H]. split; [reflexivity|exact H].
  - intros [-> H]. now rewrite try_all_none by exact H.
Qed.

(** If some place delivers, and only the right content is delivered by any, then
    it is stored. *)
Theorem C132_available_partial hostname sha256 sha512 hash in_cas download M a p d :
  a_url a <> "" ->
  In p (all_mirrors hostname M (a_url a) (a_mirrors a)) -> download p = Some d ->
  (forall q d', In q (all_mirrors hostname M (a_url a) (a_mirrors a)) ->
     download q = Some d' -> right_content sha256 sha512 hash a d') ->
  exists d', FetchFromNetwork hostname sha256 sha512 hash in_cas download M a = Stored d' /\
    right_content sha256 sha512 hash a d'.
Proof.
  intros NE Hin Hd Hr.
  destruct (some_delivers download _ p d Hin Hd) as (d' & F & q & Hq & Hqd).
  exists d'. assert (R := Hr q d' Hq Hqd). split; [|exact R].
  unfold FetchFromNetwork, NetworkFetchWithMirrors.
  destruct (String.eqb_spec (a_url a) ""); [contradiction|].
  rewrite (try_all_first download _ d' [] F).
  destruct R as (R1 & R2 & R3).
  destruct (a_sha256 a) as [s|]; [rewrite (R2 s eq_refl), String.eqb_refl|]; cbn [negb];
  (destruct (a_sha512 a) as [u|]; [rewrite (R3 u eq_refl), String.eqb_refl|]; cbn [negb]);
  rewrite R1, String.eqb_refl, orb_true_r; reflexivity.
Qed.

(** The full statement would not ask for the other places to deliver nothing
    wrong.  It does not hold: one mirror with other content, and the place with
    the right content is not tried. *)
Theorem C132_available_refuted :
  exists hostname sha256 sha512 hash download M a p d,
    a_url a <> "" /\
    In p (all_mirrors hostname M (a_url a) (a_mirrors a)) /\
    download p = Some d /\ right_content sha256 sha512 hash a d /\
    forall in_cas, in_cas (a_content a) = false ->
      exists d', FetchFromNetwork hostname sha256 sha512 hash in_cas download M a = NotFound d'.
Proof.
  exists ex_host, (fun d => d), (fun d => d), (fun d => d),
    (fun p => if String.eqb p "file:///l2" then Some "login page"
              else if String.eqb p "https://a/x" then Some "content" else None),
    ex_mirrors,
    {| a_content := "content"; a_url := "https://a/x"; a_mirrors := [];
       a_sha256 := None; a_sha512 := None |}, "https://a/x", "content".
  split; [discriminate|]. split.
  { apply (in_or_app ["file:///l1"; "file:///l2"] ["https://a/x"]). right. now left. }
  split; [reflexivity|]. split.
  { split; [reflexivity|]. split; intros s; discriminate. }
  intros in_cas H. exists "login page".
  unfold FetchFromNetwork. cbn [a_content] in *. rewrite H. reflexivity.
Qed.

(** A commit is reported as present only if the first place that could be
    fetched from has it. *)
Theorem C132_commit hostname fetch M url mirrors commit :
  FetchCommit hostname fetch M url mirrors commit = Present <->
  exists commits, In commit commits /\
    first_delivered fetch (all_mirrors hostname M url mirrors) commits.
Proof.
  unfold FetchCommit. split.
  - assert (S := try_all_spec fetch (all_mirrors hostname M url mirrors) []).
    destruct (try_all fetch _ []) as [cs|t]; [|discriminate].
    destruct (existsb (String.eqb commit) cs) eqn:E; [|discriminate]. intros _.
    apply existsb_exists in E. destruct E as (x & Hx & E). apply String.eqb_eq in E.
    subst x. exists cs. now split.
  - intros (cs & Hin & F). rewrite (try_all_first fetch _ cs [] F).
    replace (existsb (String.eqb commit) cs) with true; [reflexivity|].
    symmetry. apply existsb_exists. exists commit. split; [exact Hin|apply String.eqb_refl].
Qed.

(** If every place that can be fetched from has the commit, and there is one,
    then the commit is present afterwards. *)
Theorem C132_commit_available_partial hostname fetch M url mirrors commit p commits :
  In p (all_mirrors hostname M url mirrors) -> fetch p = Some commits ->
  (forall q cs, In q (all_mirrors hostname M url mirrors) -> fetch q = Some cs ->
     In commit cs) ->
  FetchCommit hostname fetch M url mirrors commit = Present.
Proof.
  intros Hin Hf H. apply C132_commit.
  destruct (some_delivers fetch _ p commits Hin Hf) as (cs & F & q & Hq & Hqf).
  exists cs. split; [exact (H q cs Hq Hqf)|exact F].
Qed.

(** It is not enough that the main URL has the commit: a local mirror lagging
    behind makes fetching fail. *)
Theorem C132_commit_available_refuted :
  exists hostname fetch M url mirrors commit commits,
    fetch url = Some commits /\ In commit commits /\
    FetchCommit hostname fetch M url mirrors commit = NoCommit.
Proof.
  exists ex_host,
    (fun p => if String.eqb p "file:///l1" then Some ["c1"] else Some ["c1"; "c2"]),
    ex_mirrors, "https://a/x", [], "c2", ["c1"; "c2"].
  split; [reflexivity|]. split; [right; now left|reflexivity].
Qed.

Example C132_nonvacuous :
  exists download,
    FetchFromNetwork ex_host (fun d => d) (fun d => d) (fun d => d) (fun _ => false)
      download ex_mirrors
      {| a_content := "content"; a_url := "https://a/x"; a_mirrors := ["https://b/x"];
         a_sha256 := Some "content"; a_sha512 := None |} = Stored "content" /\
    download "https://a/x" = None.
Proof.
  exists (fun p => if String.eqb p "https://b/x" then Some "content" else None).
  split; vm_compute; reflexivity.
Qed.

(** * C133 *)

Local Open Scope N_scope.

(** Values that are not positive are refused; the defaults are one attempt, and
    waiting from one up to sixty seconds. *)
Theorem C133_settings i m a c :
  Build i m a = Some c <->
  (forall x, In (Some x) [i; m; a] -> 1 <= x) /\
  initial c = match i with Some x => x | None => 1 end /\
  maximal c = match m with Some x => x | None => 60 end /\
  attempts c = match a with Some x => x | None => 1 end.
Proof.
  unfold Build, checked. destruct c as [ci cm ca]; cbn [initial maximal attempts].
  split.
  - intro H.
    destruct i as [i|]; [destruct (N.ltb_spec i 1); [discriminate|]|];
    (destruct m as [m|]; [destruct (N.ltb_spec m 1); [discriminate|]|]);
    (destruct a as [a|]; [destruct (N.ltb_spec a 1); [discriminate|]|]);
    injection H as <- <- <-;
    (split; [intros x [[= <-]|[[= <-]|[[= <-]|[]]]]; lia|
             split; [reflexivity|split; reflexivity]]).
  - intros (H & -> & -> & ->).
    assert (Hi : forall x, i = Some x -> (x <? 1) = false).
    { intros x ->. apply N.ltb_ge, H. now left. }
    assert (Hm : forall x, m = Some x -> (x <? 1) = false).
    { intros x ->. apply N.ltb_ge, H. right. now left. }
    assert (Ha : forall x, a = Some x -> (x <? 1) = false).
    { intros x ->. apply N.ltb_ge, H. right. right. now left. }
    destruct i as [i|]; [rewrite (Hi i eq_refl)|];
    (destruct m as [m|]; [rewrite (Hm m eq_refl)|]);
    (destruct a as [a|]; [rewrite (Ha a eq_refl)|]); reflexivity.
Qed.

(** Calls are made one after the other until one succeeds, or fails in a way
    that is final, or the number of attempts is reached; the result tells whether
    the last one succeeded.  There is one pause between two calls. *)
Theorem C133_calls_partial call jitter c :
  1 <= attempts c < 2 ^ 32 - 1 ->
  exists fuel b es n,
    WithRetry call jitter fuel 0 c 1 = Some (b, es) /\
    N.of_nat (S n) <= attempts c /\
    calls es = map call (seq 0 (S n)) /\
    (forall i, (i < n)%nat -> call i = Again) /\
    (b = true <-> call n = Ok) /\
    (call n = Again -> N.of_nat (S n) = attempts c) /\
    length (sleeps es) = n.
Proof.
  intros [L U].
  destruct (with_retry_spec call jitter c U (N.to_nat (attempts c)) 0)
    as (b & es & n & W & Hn & Hc & Ha & Hb & Hl & Hs); [lia|lia|].
  exists (S (N.to_nat (attempts c))), b, es, n. split; [exact W|].
  split; [lia|]. split; [exact Hc|].
  split; [intros i Hi; apply Ha; lia|]. split; [exact Hb|].
  split; [intro A; specialize (Hl A); lia|].
  rewrite Hs, map_length, seq_length. reflexivity.
Qed.

(** The largest number of attempts means that there is no limit. *)
Theorem C133_calls_refuted :
  exists call c, Build None None (Some (2 ^ 32 - 1)) = Some c /\
    forall jitter fuel, WithRetry call jitter fuel 0 c 1 = None.
Proof.
  exists (fun _ => Again), {| initial := 1; maximal := 60; attempts := 2 ^ 32 - 1 |}.
  split; [reflexivity|]. intros. apply never_done; reflexivity.
Qed.

(** The pause after the i-th failed call is the initial one doubled i-1 times,
    but at most the maximal one; plus at most three times as much. *)
Theorem C133_pauses_partial call jitter c fuel b es i s :
  1 <= attempts c < 2 ^ 32 - 1 ->
  initial c <= maximal c -> maximal c < 2 ^ 30 ->
  (forall k x, jitter k x <= 3 * x) ->
  (N.to_nat (attempts c) < fuel)%nat ->
  WithRetry call jitter fuel 0 c 1 = Some (b, es) ->
  nth_error (sleeps es) i = Some s ->
  N.min (maximal c) (initial c * 2 ^ N.of_nat i) <= s
    <= 4 * N.min (maximal c) (initial c * 2 ^ N.of_nat i).
Proof.
  intros [L U] Li Lm J F W Hs0.
  destruct (with_retry_spec call jitter c U (N.to_nat (attempts c)) 0)
    as (b' & es' & n & W' & Hn & Hc & Ha & Hb & Hl & Hs); [lia|lia|].
  change (N.of_nat 1) with 1 in W'.
  assert (M : forall f1 f2 k a r, (f1 <= f2)%nat ->
             WithRetry call jitter f1 k c a = Some r ->
             WithRetry call jitter f2 k c a = Some r).
  { clear. induction f1 as [|f1 IH]; intros f2 k a r Hf H; [discriminate|].
    destruct f2 as [|f2]; [lia|]. rewrite with_retry_S in *.
    destruct (attempts c <? a); [exact H|]. destruct (call k); [exact H|exact H|].
    destruct (WithRetry call jitter f1 (S k) c (u32 (a + 1))) as [r'|] eqn:E;
      [|discriminate].
    rewrite (IH f2 _ _ r' ltac:(lia) E). exact H. }
  assert (E : Some (b', es') = Some (b, es)).
  { rewrite <- W. symmetry. apply (M (S (N.to_nat (attempts c)))); [lia|exact W']. }
  injection E as <- <-. rewrite Hs in Hs0.
  assert (Hi : (i < n)%nat).
  { assert (X : nth_error (map (fun i => GetSleepTimeSeconds c (N.of_nat (S i))
                       (jitter i (Backoff c (N.of_nat (S i))))) (seq 0 n)) i <> None)
      by congruence.
    apply nth_error_Some in X. now rewrite map_length, seq_length in X. }
  assert (E : s = GetSleepTimeSeconds c (N.of_nat (S i))
                    (jitter i (Backoff c (N.of_nat (S i))))).
  { assert (Q : nth_error (seq 0 n) i = Some i).
    { rewrite (nth_error_nth' _ 0%nat) by (now rewrite seq_length).
      now rewrite seq_nth by exact Hi. }
    rewrite (map_nth_error _ i (seq 0 n) Q) in Hs0. congruence. }
  subst s. clear Hs0.
  assert (B : Backoff c (N.of_nat (S i)) =
              N.min (maximal c) (initial c * 2 ^ N.of_nat i)).
  { unfold Backoff. replace (N.to_nat (N.of_nat (S i) - 1)) with i by lia.
    now apply doubled_min. }
  unfold GetSleepTimeSeconds. rewrite B.
  set (x := N.min (maximal c) (initial c * 2 ^ N.of_nat i)).
  specialize (J i x).
  assert (x <= maximal c) by (unfold x; lia).
  assert (2 ^ 30 * 4 = 2 ^ 32) by reflexivity.
  rewrite u32_small by lia. lia.
Qed.

(** An initial pause that is longer than the maximal one is not cut for the
    first pause. *)
Theorem C133_first_pause_refuted :
  exists c, Build (Some 3600) (Some 60) (Some 3) = Some c /\
  forall jitter, (forall k x, jitter k x <= 3 * x) ->
  exists es s, WithRetry (fun _ => Again) jitter 9 0 c 1 = Some (false, es) /\
    nth_error (sleeps es) 0 = Some s /\ 4 * maximal c < s.
Proof.
  exists {| initial := 3600; maximal := 60; attempts := 3 |}.
  split; [reflexivity|]. intros jitter J.
  eexists _, _. split; [reflexivity|]. split; [reflexivity|].
  change (Backoff _ 1) with 3600. unfold GetSleepTimeSeconds.
  change (Backoff _ 1) with 3600. cbn [maximal].
  specialize (J 0%nat 3600).
  assert (2 ^ 32 = 4294967296) by reflexivity.
  rewrite u32_small by lia. lia.
Qed.

(** For large settings the pauses may be gone altogether: doubling wraps to
    zero. *)
Theorem C133_wrapped_pause_refuted :
  exists c, Build (Some (2 ^ 31)) (Some (2 ^ 32 - 1)) (Some 3) = Some c /\
  forall jitter, (forall k x, jitter k x <= 3 * x) ->
  exists es, WithRetry (fun _ => Again) jitter 9 0 c 1 = Some (false, es) /\
    nth_error (sleeps es) 1 = Some 0.
Proof.
  exists {| initial := 2 ^ 31; maximal := 2 ^ 32 - 1; attempts := 3 |}.
  split; [reflexivity|]. intros jitter J.
  set (c := {| initial := 2 ^ 31; maximal := 2 ^ 32 - 1; attempts := 3 |}).
  exists [Call Again; Sleep (GetSleepTimeSeconds c 1 (jitter 0%nat (Backoff c 1)));
     Call Again; Sleep (GetSleepTimeSeconds c 2 (jitter 1%nat (Backoff c 2)));
     Call Again].
  split; [reflexivity|].
  change (Some (GetSleepTimeSeconds c 2 (jitter 1%nat (Backoff c 2))) = Some 0).
  assert (B : Backoff c 2 = 0) by reflexivity.
  unfold GetSleepTimeSeconds. rewrite B. specialize (J 1%nat 0).
  assert (E : jitter 1%nat 0 = 0) by lia. rewrite E. reflexivity.
Qed.

Example C133_nonvacuous :
  WithRetry (fun k => if Nat.eqb k 3 then Ok else Again) (fun _ x => x) 9 0
    {| initial := 5; maximal := 12; attempts := 7 |} 1 =
  Some (true, [Call Again; Sleep 10; Call Again; Sleep 20; Call Again; Sleep 24; Call Ok]).
Proof. vm_compute. reflexivity. Qed.

Print Assumptions C131_order.
Print Assumptions C131_determined.
Print Assumptions C131_no_local.
Print Assumptions C131_not_strings.
Print Assumptions C131_inherit.
Print Assumptions C132_stored.
Print Assumptions C132_no_remote.
Print Assumptions C132_available_partial.
Print Assumptions C132_available_refuted.
Print Assumptions C132_commit.
Print Assumptions C132_commit_available_partial.
Print Assumptions C132_commit_available_refuted.
Print Assumptions C133_settings.
Print Assumptions C133_calls_partial.
Print Assumptions C133_calls_refuted.
Print Assumptions C133_pauses_partial.
Print Assumptions C133_first_pause_refuted.
Print Assumptions C133_wrapped_pause_refuted.
