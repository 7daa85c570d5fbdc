(** C115-C117: the target cache: provenance and keys of entries, and the order in which they are written. *)
From Coq Require Import String List Bool Arith Lia.
From Verif Require Import Common.Strs GitTree.Model Storage.Model Storage.Spec Storage.Inv Storage.Run Storage.Facts Storage.Examples.
From Verif Require Import Expr.Json Expr.JsonSpec Expr.Model Expr.HashSpec Expr.OpsSpec Expr.Witness.
From Verif Require Import Tcache.Model Tcache.Provenance Tcache.Proofs Tcache.Examples.
Import ListNotations.
Local Open Scope string_scope.
Local Open Scope list_scope.
Local Open Scope nat_scope.

(** ** C115 *)

(** C115. Whatever all the threads of all processes do to a storage, with any I/O errors, kills and garbage
    collections, and whatever trees and results they store: an entry the target cache returns for a key is the one in
    bytes that were stored under exactly this key, unless these bytes have the hash of different ones. *)
Theorem C115_targets : forall C n acts th key implied refs,
  returned (reached C n acts) th (OReadTarget key) (ATarget (Some (implied, refs))) ->
  exists b, In (Start (OStoreTarget key b)) acts /\
    (cfg_parse_target C b = Some (implied, refs) \/
     exists b', b' <> b /\ cfg_hash C KBlob b' = cfg_hash C KBlob b).
Proof.
  intros C n acts th a implied refs R.
  destruct (reached_says C _ _ n acts th _ _ (all_allowed C acts) R) as (key & b' & (b & I & E) & H & P).
  injection E as ->. exists b. split; [exact I|]. destruct (string_dec b' b) as [->|Ne]; [now left|right; eauto].
Qed.
Print Assumptions C115_targets.

(** C115. Likewise for the action cache. *)
Theorem C115_actions : forall C n acts th key refs,
  returned (reached C n acts) th (OCachedResult key) (ARefs (Some refs)) ->
  exists b, In (Start (OStoreResult key b)) acts /\
    (cfg_parse_action C b = Some refs \/
     exists b', b' <> b /\ cfg_hash C KBlob b' = cfg_hash C KBlob b).
Proof.
  intros C n acts th a refs R.
  destruct (reached_says C _ _ n acts th _ _ (all_allowed C acts) R) as (key & b' & (b & I & E) & H & P).
  injection E as ->. exists b. split; [exact I|]. destruct (string_dec b' b) as [->|Ne]; [now left|right; eauto].
Qed.
Print Assumptions C115_actions.

(** A garbage collection took place, the entry is found in the older generation. *)
Definition ex115 : list action :=
  toyw_before ++ [Start (OStoreResult "act" "res")] ++ steps 2 30 ++ [Collect false false [] [] [] (repeat true 50)] ++
  [Start (OReadTarget "k0"); Start (OCachedResult "act")] ++ steps 0 60 ++ steps 1 60.
Example C115_nonvacuous :
  returned (reached toyw 2 ex115) 0 (OReadTarget "k0") (ATarget (Some ([], [(File, "bx")]))) /\
  returned (reached toyw 2 ex115) 1 (OCachedResult "act") (ARefs (Some [(File, "bx")])).
Proof. split; vm_compute; reflexivity. Qed.

(** ** C116 *)

(** C116. While the entries of a build are written, at any point in time (so also if the process is killed there): all
    the storage went through is as C24-C30 assume of it. *)
Theorem C116_keeps_contract : forall C n before targets s, sane C -> history C n before ->
  wsteps C targets (begin_writing C n before) s ->
  no_collision (cfg_hash C) (log (disk (w_sys s))) -> length (log (disk (w_sys s))) + 2 <= cfg_fuel C ->
  w_sys s = reached C n (w_done s) /\ history C n (w_done s).
Proof.
  intros C n before targets s S0 Hi W NC F. pose proof (wsys_done C n targets before s W) as E.
  destruct (winv_steps C n targets S0 _ _ (winv_begin C n targets before Hi) W) as (E2 & H2 & _); [|auto].
  rewrite E in NC, F. now split.
Qed.
Print Assumptions C116_keeps_contract.

(** C116. An entry is written only after all the artifacts it refers to are in the storage, and all the targets it implies
    have their entries there. *)
Theorem C116_order : forall C n before targets s, sane C -> history C n before ->
  wsteps C targets (begin_writing C n before) s ->
  no_collision (cfg_hash C) (log (disk (w_sys s))) -> length (log (disk (w_sys s))) + 2 <= cfg_fuel C ->
  forall acts1 key b acts2, w_done s = acts1 ++ Start (OStoreTarget key b) :: acts2 ->
  let g := gen_at (disk (reached C n acts1)) 0 in
  exists implied refs, cfg_parse_target C b = Some (implied, refs) /\
    (forall t d, In (t, d) refs -> avail g t d) /\
    (forall j, In j implied -> j <> key -> lookup g STarget j <> None).
Proof.
  intros C n before targets s S0 Hi W NC F acts1 key b acts2 E g.
  destruct (C116_keeps_contract C n before targets s S0 Hi W NC F) as (_ & _ & _ & CT & _). rewrite E in CT.
  apply contracts_app in CT as [_ CT]. cbn [contracts] in CT. destruct CT as [(imp & refs & P & RA & IM) _].
  exists imp, refs. split; [exact P|]. split; [exact RA|]. intros j Hj Ne. destruct (IM j Hj) as [E'|X]; [contradiction|exact X].
Qed.
Print Assumptions C116_order.

(** C116. The entry of a target reported as written is found by whoever reads it afterwards, as long as no garbage
    collection took place. *)
Theorem C116_readable : forall C n before targets s key after r, sane C -> history C n before ->
  wsteps C targets (begin_writing C n before) s -> w_at s key = Written ->
  history C n (w_done s ++ Start (OReadTarget key) :: after) -> no_collection after ->
  returned (reached C n (w_done s ++ Start (OReadTarget key) :: after)) (length (threads (w_sys s))) (OReadTarget key) r ->
  exists implied refs, r = ATarget (Some (implied, refs)).
Proof.
  intros C n before targets s key after r S0 Hi W Wr H NC R. pose proof (wsys_done C n targets before s W) as E.
  assert (Q : quiet C n (w_done s)). { apply (quiet_app C n _ (Start (OReadTarget key) :: after)). apply H. }
  destruct (winv_steps C n targets S0 _ _ (winv_begin C n targets before Hi) W Q) as (_ & _ & HA).
  specialize (HA key). rewrite Wr in HA. cbn in HA. rewrite E in HA, R.
  destruct (started_ensures C n S0 _ _ _ _ H NC R) as ([[imp refs]|] & -> & X); [eauto|]. destruct (X HA).
Qed.
Print Assumptions C116_readable.

(** Two entries are written, one implying the other, a third one which is in the storage already, and itself. *)
Example C116_nonvacuous : wsteps toyw toyw_targets (begin_writing toyw 2 toyw_before) toyw_final /\
  sane toyw /\ history toyw 2 toyw_before /\
  w_at toyw_final "k0" = Written /\ w_at toyw_final "k1" = Written /\ w_at toyw_final "k2" = Written /\
  history toyw 2 (w_done toyw_final ++ toyw_after) /\
  returned (reached toyw 2 (w_done toyw_final ++ toyw_after)) (length (threads (w_sys toyw_final))) (OReadTarget "k2")
    (ATarget (Some (["k1"; "k0"; "k2"], []))).
Proof.
  split; [exact toyw_steps|]. split; [exact toyw_sane|].
  split; [apply toyw_history; [lia|vm_compute; reflexivity]|].
  split; [vm_compute; reflexivity|]. split; [vm_compute; reflexivity|]. split; [vm_compute; reflexivity|].
  split; [apply toyw_history; [lia|vm_compute; reflexivity]|vm_compute; reflexivity].
Qed.

(** ** C117 *)

(** C117. Export targets with different repository content, name or effective configuration have different keys,
    unless the hash function collides on their descriptions. *)
Theorem C117_keys : forall C ndump H r1 m1 t1 c1 r2 m2 t2 c2, number_text ndump ->
  json_value c1 = true -> json_value c2 = true -> finite ndump H c1 -> finite ndump H c2 ->
  ComputeKey C ndump H r1 m1 t1 c1 = ComputeKey C ndump H r2 m2 t2 c2 ->
  (r1 = r2 /\ m1 = m2 /\ t1 = t2 /\ c1 = c2) \/
  (exists x y, x <> y /\ cfg_hash C KBlob x = cfg_hash C KBlob y).
Proof.
  intros C ndump H r1 m1 t1 c1 r2 m2 t2 c2 NT J1 J2 F1 F2 E. unfold ComputeKey in E.
  destruct (string_dec (key_text ndump H r1 m1 t1 c1) (key_text ndump H r2 m2 t2 c2)) as [X|X]; [|right; eauto].
  left. now apply (key_text_inj ndump H NT).
Qed.
Print Assumptions C117_keys.

(** C117. If all who store entries store, under the key of an export target, an entry that is right for this target (as
    told by [right]), then what is found under the key of an export target is right for this very target, unless there
    is a collision. *)
Theorem C117_served : forall C n acts ndump H right, number_text ndump ->
  (forall key b, In (Start (OStoreTarget key b)) acts -> exists r m t c,
     key = ComputeKey C ndump H r m t c /\ json_value c = true /\ finite ndump H c /\ right r m t c (cfg_parse_target C b)) ->
  forall th r m t c implied refs, json_value c = true -> finite ndump H c ->
  returned (reached C n acts) th (OReadTarget (ComputeKey C ndump H r m t c)) (ATarget (Some (implied, refs))) ->
  right r m t c (Some (implied, refs)) \/ exists x y, x <> y /\ cfg_hash C KBlob x = cfg_hash C KBlob y.
Proof.
  intros C n acts ndump H right NT ST th r m t c implied refs J F R.
  destruct (C115_targets C n acts th _ implied refs R) as (b & I & [P|(x & Ne & E)]); [|right; eauto].
  destruct (ST _ _ I) as (r' & m' & t' & c' & K & J' & F' & Rt).
  destruct (C117_keys C ndump H _ _ _ _ _ _ _ _ NT J J' F F' K) as [(-> & -> & -> & ->)|X]; [left; now rewrite <- P|right; exact X].
Qed.
Print Assumptions C117_served.

(** A repository and its neighbour: the names of module and target are kept apart, and quotes in names do no harm. *)
Example C117_nonvacuous :
  number_text toy_ndump /\ json_value (EMap [("ARCH", EStr "x86")]) = true /\ finite toy_ndump Expr.Witness.toy_hash (EMap [("ARCH", EStr "x86")]) /\
  ComputeKey toyw toy_ndump Expr.Witness.toy_hash "r" "a"",""b" "c" (EMap [("ARCH", EStr "x86")]) <>
  ComputeKey toyw toy_ndump Expr.Witness.toy_hash "r" "a" "b"",""c" (EMap [("ARCH", EStr "x86")]).
Proof. split; [exact toy_number_text|]. split; [reflexivity|]. split; [cbn; auto|]. vm_compute. discriminate. Qed.
