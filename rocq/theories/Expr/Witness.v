(** A concrete number text and a concrete hash meeting the hypotheses of the theorems on hashes. *)
From Coq Require Import String Ascii List Bool NArith ZArith SpecFloat Lia.
From Verif Require Import Expr.Json Expr.JsonSpec Expr.HashSpec.
Import ListNotations.
Local Open Scope string_scope.

Fixpoint pos_text (p : positive) : string :=
  match p with xH => "." | xO q => String "0" (pos_text q) | xI q => String "1" (pos_text q) end.
Definition z_text (z : Z) : string :=
  match z with Z0 => "0." | Zpos p => String "1" (pos_text p) | Zneg p => String "-" (pos_text p) end.
Definition toy_ndump (n : num) : string :=
  match n with
  | S754_zero false => "+0."
  | S754_zero true => "-0."
  | S754_finite s m e => (if s then "-1" else "+1") ++ pos_text m ++ z_text e
  | _ => ""
  end.
Definition toy_hash (s : string) : string := match s with "" => "0" | String c _ => String c "" end.

Lemma pos_text_inj p : forall q r s, pos_text p ++ r = pos_text q ++ s -> p = q /\ r = s.
Proof.
  induction p as [p IH|p IH|]; intros [q|q|] r s E; cbn in E; try discriminate; injection E as E; auto.
  - destruct (IH _ _ _ E). split; congruence.
  - destruct (IH _ _ _ E). split; congruence.
Qed.
Lemma app_nil_str s : s ++ "" = s. Proof. induction s; cbn; congruence. Qed.
Lemma z_text_inj a b : z_text a = z_text b -> a = b.
Proof.
  destruct a as [|p|p], b as [|q|q]; cbn; intros E; try discriminate; auto; injection E as E;
    rewrite <- (app_nil_str (pos_text p)), <- (app_nil_str (pos_text q)) in E; apply pos_text_inj in E as [-> _]; auto.
Qed.
Lemma all_chars_app p a b : all_chars p (a ++ b) = (all_chars p a && all_chars p b)%bool.
Proof. induction a; cbn; auto. rewrite IHa. now destruct (p a). Qed.
Lemma pos_chars p : all_chars numchar (pos_text p) = true.
Proof. induction p; cbn; auto. Qed.
Lemma pos_dot p : all_chars (fun c => is_digit c || Ascii.eqb c "-")%bool (pos_text p) = false.
Proof. induction p; cbn; auto. Qed.
Lemma z_chars z : all_chars numchar (z_text z) = true.
Proof. destruct z; cbn; auto using pos_chars. Qed.

Lemma toy_number_text : number_text toy_ndump.
Proof.
  split.
  - intros [s|s| |s m e] [F _]; try discriminate.
    + destruct s; cbn; repeat split; auto; discriminate.
    + unfold toy_ndump. rewrite !all_chars_app, pos_chars, pos_dot, z_chars. destruct s; cbn; repeat split; auto; discriminate.
  - intros [s|s| |s m e] [s'|s'| |s' m' e'] [F _] [F' _]; try discriminate; cbn.
    + destruct s, s'; intros; try discriminate; reflexivity.
    + destruct s, s'; intros; discriminate.
    + destruct s, s'; intros; discriminate.
    + intros E. assert (s = s' /\ pos_text m ++ z_text e = pos_text m' ++ z_text e') as [-> E1].
      { destruct s, s'; cbn in E; try discriminate; injection E as E; auto. }
      apply pos_text_inj in E1 as [-> E2]. apply z_text_inj in E2. congruence.
Qed.

Lemma toy_fixed_length : fixed_length toy_hash.
Proof. exists 1. split; [lia|]. intros [|c s]; reflexivity. Qed.
