(** Proofs about matching of keys and patterns. *)
From Coq Require Import String Ascii List Bool Arith Lia.
From Verif Require Import GitConfig.Model GitConfig.Spec.
Import ListNotations.
Local Open Scope string_scope.
Local Open Scope list_scope.
Local Open Scope nat_scope.

(** ** Splitting *)
Lemma pieces_nonempty d s : pieces d s <> [].
Proof. destruct s as [|c r]; cbn; [discriminate|]. destruct (Ascii.eqb c d); [discriminate|]. destruct (pieces d r); discriminate. Qed.

Lemma getlines_labels d s : getlines d s = labels d s.
Proof.
  induction s as [|c r IH]; [reflexivity|]. cbn [getlines pieces]. unfold labels in *. cbn [pieces].
  destruct (Ascii.eqb c d).
  - rewrite IH. destruct (pieces d r) as [|t ts] eqn:E; [now apply pieces_nonempty in E|].
    change (last ("" :: t :: ts) "") with (last (t :: ts) ""). change (removelast ("" :: t :: ts)) with ("" :: removelast (t :: ts)).
    destruct (String.eqb (last (t :: ts) "") ""); reflexivity.
  - rewrite IH. destruct (pieces d r) as [|t ts] eqn:E; [now apply pieces_nonempty in E|].
    destruct ts as [|t' ts].
    + cbn. destruct (String.eqb_spec t "") as [->|N]; reflexivity.
    + change (last (String c t :: t' :: ts) "") with (last (t' :: ts) "").
      change (last (t :: t' :: ts) "") with (last (t' :: ts) "").
      change (removelast (t :: t' :: ts)) with (t :: removelast (t' :: ts)).
      change (removelast (String c t :: t' :: ts)) with (String c t :: removelast (t' :: ts)).
      destruct (String.eqb (last (t' :: ts) "") ""); reflexivity.
Qed.

Lemma app_str_assoc (a b c : string) : ((a ++ b) ++ c = a ++ (b ++ c))%string.
Proof. induction a as [|x a IH]; cbn; [reflexivity|now rewrite IH]. Qed.
Lemma app_str_nil (a : string) : (a ++ "" = a)%string.
Proof. induction a as [|x a IH]; cbn; [reflexivity|now rewrite IH]. Qed.
Lemma app_str_length (a b : string) : String.length (a ++ b) = String.length a + String.length b.
Proof. induction a as [|x a IH]; cbn; [reflexivity|now rewrite IH]. Qed.
Lemma app_str_inv (a b c e : string) : (a ++ b = c ++ e)%string -> String.length a = String.length c -> a = c /\ b = e.
Proof.
  revert c. induction a as [|x a IH]; intros [|y c] E L; cbn in *; try discriminate; [auto|].
  injection E as <- E. injection L as L. destruct (IH _ E L) as [-> ->]. auto.
Qed.

Lemma pieces_app d x y : pieces d (x ++ String d y) = pieces d x ++ pieces d y.
Proof.
  induction x as [|c x IH]; cbn; [now rewrite Ascii.eqb_refl|]. rewrite IH. destruct (Ascii.eqb c d); [reflexivity|].
  destruct (pieces d x) eqn:E; [now apply pieces_nonempty in E|reflexivity].
Qed.
Fixpoint join (d : ascii) (l : list string) : string :=
  match l with
  | [] => ""
  | [t] => t
  | t :: ts => (t ++ String d (join d ts))%string
  end.
Lemma join_cons d t ts : ts <> [] -> join d (t :: ts) = (t ++ String d (join d ts))%string.
Proof. destruct ts; [congruence|reflexivity]. Qed.
Lemma join_pieces d s : join d (pieces d s) = s.
Proof.
  induction s as [|c r IH]; [reflexivity|]. cbn [pieces]. destruct (Ascii.eqb_spec c d) as [->|N].
  - rewrite join_cons by apply pieces_nonempty. now rewrite IH.
  - destruct (pieces d r) as [|t ts] eqn:E; [now apply pieces_nonempty in E|].
    destruct ts as [|t' ts]; [cbn in *; now rewrite IH|]. rewrite join_cons in * by discriminate.
    change (String c t ++ String d (join d (t' :: ts)))%string with (String c (t ++ String d (join d (t' :: ts)))). now rewrite IH.
Qed.
Lemma join_app d a b : a <> [] -> b <> [] -> join d (a ++ b) = (join d a ++ String d (join d b))%string.
Proof.
  intros A B. induction a as [|t a IH]; [congruence|]. destruct a as [|t' a].
  - cbn [app]. now rewrite join_cons.
  - change ((t :: t' :: a) ++ b) with (t :: ((t' :: a) ++ b)). rewrite join_cons by (destruct a; discriminate).
    rewrite IH by discriminate. rewrite (join_cons d t (t' :: a)) by discriminate. rewrite app_str_assoc. reflexivity.
Qed.
Lemma getlines_end d s : getlines d (s ++ String d "") = pieces d s.
Proof.
  rewrite getlines_labels. unfold labels. rewrite pieces_app. cbn [pieces].
  rewrite last_last, removelast_last. reflexivity.
Qed.

(** ** Comparing lists of tokens *)
Lemma all_match_prefix k u : all_match String.eqb k u = true <-> exists l, u = k ++ l.
Proof.
  revert u. induction k as [|a k IH]; intros u; cbn.
  - split; [intros _; now exists u|auto].
  - destruct u as [|b u]; [split; [discriminate|intros [l E]; discriminate]|]. rewrite andb_true_iff, IH, String.eqb_eq. split.
    + intros [-> [l ->]]. now exists l.
    + intros [l E]. injection E as -> ->. split; [reflexivity|now exists l].
Qed.
Lemma all_match_forall2 eq (R : string -> string -> Prop) k u : (forall a b, eq a b = true <-> R a b) -> List.length k = List.length u ->
  (all_match eq k u = true <-> Forall2 R k u).
Proof.
  intros HE. revert u. induction k as [|a k IH]; intros [|b u] L; try discriminate; cbn.
  - split; constructor.
  - injection L as L. rewrite andb_true_iff, HE, (IH u L). split; [intros [X Y]; now constructor|inversion 1; auto].
Qed.
Lemma Forall2_len {A B} (R : A -> B -> Prop) l m : Forall2 R l m -> List.length l = List.length m.
Proof. induction 1; cbn; congruence. Qed.

Lemma hosts_match k u : HostsMatch k u = true <-> Forall2 (fun x y => x = y \/ x = "*") (labels "." k) (labels "." u).
Proof.
  unfold HostsMatch. rewrite !getlines_labels, andb_true_iff, Nat.eqb_eq.
  assert (HE : forall a b, (String.eqb a b || String.eqb a "*") = true <-> (a = b \/ a = "*"))
    by (intros a b; rewrite orb_true_iff, !String.eqb_eq; tauto).
  split; [intros [L M]; now apply (all_match_forall2 _ _ _ _ HE L)|].
  intros F. pose proof (Forall2_len _ _ _ F) as L. split; [exact L|now apply (all_match_forall2 _ _ _ _ HE L)].
Qed.

Lemma path_match a b n : PathMatchSize (a ++ "/") (b ++ "/") = Some n <->
  n = String.length (a ++ "/") /\ exists rest, (b ++ "/" = (a ++ "/") ++ rest)%string.
Proof.
  unfold PathMatchSize. rewrite !getlines_end.
  assert (P : (exists l, pieces "/" b = pieces "/" a ++ l) <-> exists rest, (b ++ "/" = (a ++ "/") ++ rest)%string).
  { split.
    - intros [l E]. destruct l as [|t l].
      + exists "". rewrite app_nil_r in E. rewrite <- (join_pieces "/" b), E, join_pieces. now rewrite app_str_nil.
      + exists (join "/" (t :: l) ++ "/")%string. rewrite <- (join_pieces "/" b), E, join_app; [|apply pieces_nonempty|discriminate].
        rewrite join_pieces, !app_str_assoc. reflexivity.
    - intros [rest E]. destruct (String.eqb_spec rest "") as [->|N].
      + exists []. rewrite app_str_nil in E. rewrite app_nil_r.
        assert (L : String.length b = String.length a) by (apply (f_equal String.length) in E; rewrite !app_str_length in E; cbn in E; lia).
        apply app_str_inv in E; [|exact L]. now destruct E as [-> _].
      + assert (X : exists r, rest = (r ++ "/")%string /\ b = (a ++ String "/" r)%string).
        { clear - E N. rewrite app_str_assoc in E. change ("/" ++ rest)%string with (String "/" rest) in E.
          assert (Y : exists r c, rest = (r ++ String c "")%string).
          { clear E. induction rest as [|c rest IH]; [congruence|]. destruct rest as [|c' rest]; [exists "", c; reflexivity|].
            destruct IH as (r & e & ->); [discriminate|]. exists (String c r), e. reflexivity. }
          destruct Y as (r & c & ->). change (String "/" (r ++ String c "")) with ((String "/" r) ++ String c "")%string in E.
          rewrite <- app_str_assoc in E.
          assert (L : String.length b = String.length (a ++ String "/" r)%string)
            by (apply (f_equal String.length) in E; rewrite !app_str_length in E; rewrite !app_str_length; cbn in *; lia).
          apply app_str_inv in E; [|exact L]. destruct E as [-> E]. injection E as <-. exists r. auto. }
        destruct X as (r & -> & ->). exists (pieces "/" r). apply pieces_app. }
  destruct (Nat.ltb_spec (List.length (pieces "/" b)) (List.length (pieces "/" a))) as [L|L].
  - split; [discriminate|]. intros [_ X]. apply P in X. destruct X as [l E]. rewrite E, app_length in L. lia.
  - destruct (all_match String.eqb (pieces "/" a) (pieces "/" b)) eqn:M.
    + apply all_match_prefix, P in M. split; [intros E; injection E as <-; auto|intros [-> _]; reflexivity].
    + split; [discriminate|]. intros [_ X]. apply P, all_match_prefix in X. congruence.
Qed.

(** ** Full paths *)
Lemma ends_spec s : ends_with_slash s = true <-> exists r, s = (r ++ "/")%string.
Proof.
  split.
  - induction s as [|c s IH]; [discriminate|]. destruct s as [|c' s].
    + cbn. intros E. apply Ascii.eqb_eq in E. subst. now exists "".
    + intros E. destruct (IH E) as [r ->]. now exists (String c r).
  - intros [r ->]. induction r as [|c r IH]; [reflexivity|]. cbn. destruct (r ++ "/")%string eqn:E; [destruct r; discriminate|exact IH].
Qed.
Lemma is_full p s : is_full_path p s <-> s = full_path p.
Proof.
  unfold full_path, is_full_path.
  set (base := match p_path p with String c _ => if Ascii.eqb c "/" then p_path p else ("/" ++ p_path p)%string | EmptyString => "/" end).
  assert (B : forall b, (b = p_path p /\ (exists r, b = String "/" r) \/ b = ("/" ++ p_path p)%string /\ forall r, p_path p <> String "/" r) <-> b = base).
  { intros b. unfold base. destruct (p_path p) as [|c r].
    - split; [intros [[-> [r E]]|[-> _]]; [discriminate|reflexivity]|intros ->; right; split; [reflexivity|discriminate]].
    - destruct (Ascii.eqb_spec c "/") as [->|N].
      + split; [intros [[-> _]|[_ X]]; [reflexivity|now destruct (X r)]|intros ->; left; split; [reflexivity|now exists r]].
      + split; [intros [[-> [r' E]]|[-> _]]; [congruence|reflexivity]|intros ->; right; split; [reflexivity|intros r' E; congruence]]. }
  split.
  - intros (b & Hb & t & Ht & Et). apply B in Hb. subst b. rewrite <- Et.
    destruct (ends_with_slash t) eqn:ES.
    + destruct Ht as [[-> _]|[_ X]]; [reflexivity|]. apply ends_spec in ES. destruct ES as [r E]. now destruct (X r).
    + destruct Ht as [[_ X]|[-> _]]; [|reflexivity]. apply ends_spec in X. congruence.
  - intros ->. exists base. split; [now apply B|]. eexists. split; [|reflexivity].
    match goal with |- context [ends_with_slash ?t] => destruct (ends_with_slash t) eqn:ES end.
    + left. split; [reflexivity|]. now apply ends_spec.
    + right. split; [reflexivity|]. intros r E. assert (X : exists r, _ = (r ++ "/")%string) by (exists r; exact E). apply ends_spec in X. congruence.
Qed.
Lemma full_ends p : exists r, full_path p = (r ++ "/")%string.
Proof.
  unfold full_path. match goal with |- context [ends_with_slash ?t] => destruct (ends_with_slash t) eqn:ES end; [now apply ends_spec|eexists; reflexivity].
Qed.
Lemma path_full k u n : PathMatchSize (full_path k) (full_path u) = Some n <->
  n = String.length (full_path k) /\ exists kp up rest, is_full_path k kp /\ is_full_path u up /\ up = (kp ++ rest)%string.
Proof.
  destruct (full_ends k) as [a Ea], (full_ends u) as [b Eb]. rewrite Ea, Eb, path_match. rewrite <- Ea, <- Eb. split.
  - intros [-> [rest E]]. split; [reflexivity|]. exists (full_path k), (full_path u), rest. rewrite !is_full. auto.
  - intros [-> (kp & up & rest & K & U & E)]. apply is_full in K. apply is_full in U. subst. split; [reflexivity|now exists rest].
Qed.

(** ** Finding the host in a key *)
Lemma match_here_spec pat s m rest : match_here pat s = Some (m, rest) <-> s = (m ++ rest)%string /\ fits pat m.
Proof.
  unfold fits. revert s m rest. induction pat as [|a p IH]; intros s m rest; cbn.
  - split.
    + intros E. injection E as <- <-. split; [reflexivity|constructor].
    + intros [-> F]. destruct m; [reflexivity|inversion F].
  - destruct s as [|b r].
    + split; [discriminate|]. intros [E F]. destruct m; [inversion F|discriminate].
    + destruct (Ascii.eqb a b || (Ascii.eqb a "." && Ascii.eqb b "*"))%bool eqn:C.
      * assert (C' : a = b \/ (a = "."%char /\ b = "*"%char))
          by (rewrite orb_true_iff, andb_true_iff, !Ascii.eqb_eq in C; exact C).
        destruct (match_here p r) as [[m' rest']|] eqn:M.
        -- apply IH in M. destruct M as [-> F]. split.
           ++ intros E. injection E as <- <-. split; [reflexivity|]. cbn. now constructor.
           ++ intros [E F']. destruct m as [|x m]; [inversion F'|]. injection E as <- E. cbn in F'. inversion F'; subst.
              assert (L : String.length m' = String.length m).
              { apply Forall2_len in F. match goal with X : Forall2 _ _ (list_ascii_of_string m) |- _ => apply Forall2_len in X; rename X into F2 end.
                assert (G : forall s, List.length (list_ascii_of_string s) = String.length s) by (induction s; cbn; congruence).
                rewrite !G in *. congruence. }
              apply app_str_inv in E; [|exact L]. destruct E as [-> ->]. reflexivity.
        -- split; [discriminate|]. intros [E F]. destruct m as [|x m]; [inversion F|]. injection E as <- E. cbn in F. inversion F; subst.
           match goal with X : Forall2 _ _ (list_ascii_of_string m) |- _ => rename X into F2 end.
           assert (X : match_here p (m ++ rest) = Some (m, rest)) by (apply IH; auto). congruence.
      * split; [discriminate|]. intros [E F]. destruct m as [|x m]; [inversion F|]. injection E as <- E. cbn in F. inversion F; subst.
        rewrite orb_false_iff, andb_false_iff, !Ascii.eqb_neq in C. tauto.
Qed.
Lemma fits_length p a b : fits p a -> fits p b -> String.length a = String.length b.
Proof.
  intros A B. apply Forall2_len in A. apply Forall2_len in B.
  assert (G : forall s, List.length (list_ascii_of_string s) = String.length s) by (induction s; cbn; congruence).
  rewrite !G in *. congruence.
Qed.
Lemma hits_first pat h b : pat <> "" -> fits pat h -> forall a before,
  (forall a' h' b', (a ++ h ++ b = a' ++ h' ++ b')%string -> fits pat h' -> String.length a <= String.length a') ->
  exists r, hits pat before 0 (a ++ h ++ b) = ((before ++ a)%string, h, b) :: r.
Proof.
  intros N F. induction a as [|c a IH]; intros before FI.
  - cbn [append]. destruct h as [|x h]; [destruct pat; [congruence|inversion F]|]. cbn [append hits].
    assert (M : match_here pat (String x (h ++ b)) = Some (String x h, b)) by (apply match_here_spec; split; [reflexivity|exact F]).
    rewrite M, app_str_nil. eexists. reflexivity.
  - cbn [append hits]. destruct (match_here pat (String c (a ++ h ++ b))) as [[m rest]|] eqn:M.
    + apply match_here_spec in M. destruct M as [E G]. specialize (FI "" m rest E G). cbn in FI. lia.
    + destruct (IH (before ++ String c "")%string) as [r ->].
      * intros a' h' b' E G. specialize (FI (String c a') h' b'). cbn in FI. rewrite E in FI. specialize (FI eq_refl G). lia.
      * rewrite app_str_assoc. cbn [append]. eexists. reflexivity.
Qed.
Lemma has_star_spec s : has_star s = true <-> In "*"%char (list_ascii_of_string s).
Proof.
  induction s as [|c s IH]; cbn; [split; [discriminate|tauto]|]. rewrite orb_true_iff, Ascii.eqb_eq, IH. tauto.
Qed.

Section Keys.
  Context (parse : string -> option parts).

  Lemma reads_parse key k kh : reads parse key k kh ->
    ParseConfigKey parse key = Key (mkKey (p_scheme k) (p_user k) kh (p_port k) (full_path k)).
  Proof.
    intros [p NS E|p0 host a h b p S E0 EH NE -> F FI E]; unfold ParseConfigKey, GetConfigStructFromKey.
    - destruct (has_star key) eqn:HS; [now apply has_star_spec in HS|]. cbn [negb]. rewrite E. reflexivity.
    - apply has_star_spec in S. rewrite S. cbn [negb]. rewrite E0, EH. destruct (hits_first host h b NE F a "" FI) as [r ->].
      cbn [try_hits append]. unfold GetConfigStructFromKey. rewrite E. reflexivity.
  Qed.
  Lemma no_url_parse key : no_url parse key -> ParseConfigKey parse key = Unparsable.
  Proof.
    intros [[NS E]|[S E]]; unfold ParseConfigKey, GetConfigStructFromKey.
    - destruct (has_star key) eqn:HS; [now apply has_star_spec in HS|]. cbn [negb]. now rewrite E.
    - apply has_star_spec in S. rewrite S. cbn [negb]. now rewrite E.
  Qed.

  Lemma opt_eqb_eq a b : opt_eqb a b = true <-> a = b.
  Proof. destruct a, b; cbn; rewrite ?String.eqb_eq; split; congruence. Qed.

  Context (u : parts) (PU : p_port u <> None).

  Lemma match_key key : key_fine parse u key ->
    MatchConfigKey parse u key <> MatchError /\
    forall h p us, MatchConfigKey parse u key = Match h p us <-> entry_applies parse u key (h, p, us).
  Proof.
    intros [NU|(k & kh & R & US)].
    - unfold MatchConfigKey. rewrite (no_url_parse _ NU). split; [discriminate|]. intros h p us. split; [discriminate|].
      intros (k & kh & R & _). apply reads_parse in R. rewrite (no_url_parse _ NU) in R. discriminate.
    - assert (RF : forall k' kh', reads parse key k' kh' -> p_scheme k' = p_scheme k /\ p_user k' = p_user k /\ kh' = kh /\
          p_port k' = p_port k /\ full_path k' = full_path k).
      { intros k' kh' R'. apply reads_parse in R, R'. rewrite R in R'. injection R' as -> -> -> -> ->. auto. }
      assert (AP : forall h p us, entry_applies parse u key (h, p, us) <-> applies k kh u /\ specific k kh (h, p, us)).
      { intros h p us. split; [|intros [A S]; exists k, kh; auto]. intros (k' & kh' & R' & A & S).
        destruct (RF _ _ R') as (E1 & E2 & -> & E4 & E5). unfold applies, specific in *.
        assert (FP : forall s, is_full_path k' s <-> is_full_path k s) by (intros s; now rewrite !is_full, E5).
        rewrite E1, E2, E4 in *. destruct A as (A1 & A2 & A3 & (kp & up & rest & K & U & E) & A5). apply FP in K.
        destruct S as (S1 & (kp' & K' & S2) & S3). apply FP in K'. 
        split; [split; [exact A1|split; [exact A2|split; [exact A3|split; [exists kp, up, rest; auto|exact A5]]]]|].
        split; [exact S1|split; [exists kp'; auto|exact S3]]. }
      unfold MatchConfigKey. rewrite (reads_parse _ _ _ R). cbn [k_scheme k_user k_host k_port k_path].
      destruct (opt_eqb (p_scheme k) (p_scheme u)) eqn:ES; cbn [negb].
      2: { split; [discriminate|]. intros h p us. split; [discriminate|]. intros X. apply AP in X. destruct X as [(X & _) _].
           apply opt_eqb_eq in X. congruence. }
      apply opt_eqb_eq in ES.
      (* the part after the user *)
      match goal with |- context [match p_user k with None => ?T | Some _ => _ end] => set (after0 := T) end.
      assert (GEN : forall um, (um = true <-> p_user k <> None) -> (p_user k = None \/ p_user k = p_user u) ->
        let R := if negb (opt_eqb kh (p_host u)) &&
               negb (match kh, p_host u with Some a, Some b => HostsMatch a b | _, _ => false end) then NoMatch
            else
              match p_port u with
              | None => MatchError
              | Some _ =>
                  if negb (opt_eqb (p_port k) (p_port u)) then NoMatch
                  else match PathMatchSize (full_path k) (full_path u) with
                       | None => NoMatch
                       | Some n => Match (match kh with Some h => String.length h | None => 0 end) n um
                       end
              end in R <> MatchError /\ forall h p us, R = Match h p us <-> applies k kh u /\ specific k kh (h, p, us)).
      { intros um UM UE R0. subst R0.
        assert (HM : (negb (opt_eqb kh (p_host u)) && negb (match kh, p_host u with Some a, Some b => HostsMatch a b | _, _ => false end))%bool = false <->
           (kh = p_host u \/ exists a b, kh = Some a /\ p_host u = Some b /\ Forall2 (fun x y => x = y \/ x = "*") (labels "." a) (labels "." b))).
        { rewrite andb_false_iff, !negb_false_iff, opt_eqb_eq.
          assert (Y : (match kh, p_host u with Some a, Some b => HostsMatch a b | _, _ => false end = true) <->
             exists a b, kh = Some a /\ p_host u = Some b /\ Forall2 (fun x y => x = y \/ x = "*") (labels "." a) (labels "." b)).
          { destruct kh as [a|], (p_host u) as [b|].
            - rewrite hosts_match. split; [intros F; exists a, b; auto|intros (a' & b' & E1 & E2 & F); congruence].
            - split; [discriminate|intros (a' & b' & E1 & E2 & F); discriminate].
            - split; [discriminate|intros (a' & b' & E1 & E2 & F); discriminate].
            - split; [discriminate|intros (a' & b' & E1 & E2 & F); discriminate]. }
          now rewrite Y. }
        destruct (negb (opt_eqb kh (p_host u)) && negb (match kh, p_host u with Some a, Some b => HostsMatch a b | _, _ => false end))%bool.
        { split; [discriminate|]. intros h p us. split; [discriminate|]. intros [(_ & X & _) _]. apply HM in X. discriminate. }
        destruct (p_port u) as [pu|] eqn:EP; [|congruence].
        destruct (opt_eqb (p_port k) (Some pu)) eqn:EQ; cbn [negb].
        2: { split; [discriminate|]. intros h p us. split; [discriminate|]. intros [(_ & _ & X & _) _].
             rewrite EP in X. apply opt_eqb_eq in X. congruence. }
        apply opt_eqb_eq in EQ.
        destruct (PathMatchSize (full_path k) (full_path u)) as [n|] eqn:PM.
        - apply path_full in PM. destruct PM as [-> PM]. split; [discriminate|]. intros h p us. split.
          + intros E. injection E as <- <- <-. split.
            * split; [exact ES|]. split; [now apply HM|]. split; [congruence|]. split; [exact PM|exact UE].
            * split; [reflexivity|]. split; [exists (full_path k); split; [now apply is_full|reflexivity]|exact UM].
          + intros [_ (S1 & (kp & K & S2) & S3)]. cbn in S1, S2, S3. apply is_full in K. subst. f_equal.
            destruct um, us; try reflexivity; exfalso.
            * assert (false = true) by (apply S3; apply UM; reflexivity). discriminate.
            * assert (false = true) by (apply UM; apply S3; reflexivity). discriminate.
        - split; [discriminate|]. intros h p us. split; [discriminate|]. intros [(_ & _ & _ & X & _) _].
          assert (PM' : PathMatchSize (full_path k) (full_path u) = Some (String.length (full_path k))) by (apply path_full; auto). congruence. }
      destruct (p_user k) as [x|] eqn:EU.
      + destruct (p_user u) as [y|] eqn:EY; [|destruct US as [US|[US|US]]; congruence].
        destruct (String.eqb_spec x y) as [->|N].
        * destruct (GEN true) as [G1 G2]; [split; [discriminate|reflexivity]|now right|]. split; [exact G1|].
          intros h p us. rewrite G2, AP. tauto.
        * split; [discriminate|]. intros h p us. split; [discriminate|]. intros X. apply AP in X. destruct X as [(_ & _ & _ & _ & [X|X]) _]; congruence.
      + destruct (GEN false) as [G1 G2]; [split; [discriminate|congruence]|now left|]. split; [exact G1|].
        intros h p us. unfold after0. rewrite G2, AP. tauto.
  Qed.

  Lemma applies_unique k d' d : entry_applies parse u k d' -> entry_applies parse u k d -> d' = d.
  Proof.
    intros X A.
    assert (KF : key_fine parse u k).
    { destruct X as (k1 & kh1 & R1 & (_ & _ & _ & _ & A5) & _). right. exists k1, kh1. split; [exact R1|].
      destruct (p_user k1) eqn:EU; [right; left; destruct A5; congruence|now left]. }
    destruct (match_key k KF) as [_ MM]. destruct d as [[h1 p1] u1], d' as [[h2 p2] u2].
    apply MM in X. apply MM in A. congruence.
  Qed.

  (** ** The best match *)
  Lemma below_num h1 p1 u1 h2 p2 u2 : below (h1, p1, u1) (h2, p2, u2) <->
    h1 < h2 \/ (h1 = h2 /\ (p1 < p2 \/ (p1 = p2 /\ Nat.b2n u1 < Nat.b2n u2))).
  Proof.
    cbn [below]. assert (X : u1 = false /\ u2 = true <-> Nat.b2n u1 < Nat.b2n u2).
    { destruct u1, u2; cbn; split; intros X; try lia; try (destruct X; discriminate); auto. }
    now rewrite X.
  Qed.
  Lemma compare_spec d e : compare d e = true <-> ~ below d e.
  Proof.
    destruct d as [[h1 p1] u1], e as [[h2 p2] u2]. rewrite below_num. cbn [compare].
    destruct (Nat.eqb_spec h1 h2) as [->|N]; cbn [negb]; [|rewrite Nat.ltb_lt; lia].
    destruct (Nat.eqb_spec p1 p2) as [->|N]; cbn [negb]; [|rewrite Nat.ltb_lt; lia].
    destruct u1, u2; cbn; split; intros X; try lia; try discriminate; reflexivity.
  Qed.
  Lemma below_trans1 a b c : ~ below a b -> ~ below b c -> ~ below a c.
  Proof. destruct a as [[h1 p1] u1], b as [[h2 p2] u2], c as [[h3 p3] u3]. rewrite !below_num. lia. Qed.
  Lemma below_asym a b : below a b -> ~ below b a.
  Proof. destruct a as [[h1 p1] u1], b as [[h2 p2] u2]. rewrite !below_num. lia. Qed.
  Lemma below_dec a b : below a b \/ ~ below a b.
  Proof. destruct a as [[h1 p1] u1], b as [[h2 p2] u2]. rewrite !below_num. lia. Qed.

  Lemma emplace_head d v l : exists r, emplace d v l =
    match l with (e, w) :: _ => if compare d e then (d, v) :: r else (e, w) :: r | [] => (d, v) :: r end.
  Proof. destruct l as [|[e w] l]; cbn; [now exists []|]. destruct (compare d e); eexists; reflexivity. Qed.
  Lemma emplace_In d v l x : In x (emplace d v l) <-> x = (d, v) \/ In x l.
  Proof.
    induction l as [|[e w] l IH]; cbn; [intuition congruence|]. destruct (compare d e); cbn; [intuition congruence|]. rewrite IH. tauto.
  Qed.

  Definition best (entries : list (string * string)) (d : degree) (v : string) : Prop :=
    exists before key after, entries = before ++ (key, v) :: after /\ entry_applies parse u key d /\
      (forall e d', In e before -> entry_applies parse u (fst e) d' -> ~ below d d') /\
      (forall e d', In e after -> entry_applies parse u (fst e) d' -> below d' d).

  Definition tracks (pre : list (string * string)) (l : list (degree * string)) : Prop :=
    match l with [] => none_applies parse u pre | (d, v) :: _ => best pre d v end /\
    (forall d v, In (d, v) l <-> exists key, In (key, v) pre /\ entry_applies parse u key d).

  Lemma collect_tracks entries : (forall e, In e entries -> key_fine parse u (fst e)) -> forall pre l, tracks pre l ->
    exists l', collect parse u entries l = Some l' /\ tracks (pre ++ entries) l'.
  Proof.
    induction entries as [|[key v] r IH]; intros KF pre l T; cbn [collect].
    - rewrite app_nil_r. eauto.
    - assert (KF' : forall e, In e r -> key_fine parse u (fst e)) by (intros e I; apply KF; now right).
      destruct (match_key key (KF _ (or_introl eq_refl))) as [NE M].
      replace (pre ++ (key, v) :: r) with ((pre ++ [(key, v)]) ++ r) by (rewrite <- app_assoc; reflexivity).
      destruct (MatchConfigKey parse u key) as [| |h p us] eqn:EM; [congruence| |]; apply (IH KF').
      + assert (NA : forall d, ~ entry_applies parse u key d).
        { intros [[h p] us] X. apply M in X. discriminate. }
        destruct T as [T1 T2]. split.
        * destruct l as [|[d w] l].
          -- intros e d I X. apply in_app_or in I. destruct I as [I|[<-|[]]]; [exact (T1 e d I X)|exact (NA d X)].
          -- destruct T1 as (b & k & a & -> & A & B1 & B2). exists b, k, (a ++ [(key, v)]). split; [now rewrite <- app_assoc|].
             split; [exact A|]. split; [exact B1|]. intros e d' I X. apply in_app_or in I. destruct I as [I|[<-|[]]]; [exact (B2 e d' I X)|].
             exfalso. exact (NA d' X).
        * intros d w. rewrite T2. split; intros (k & I & X); exists k; (split; [|exact X]); [apply in_or_app; now left|].
          apply in_app_or in I. destruct I as [I|[E|[]]]; [exact I|]. injection E as <- <-. now apply NA in X.
      + assert (AP : entry_applies parse u key (h, p, us)) by (apply M; reflexivity).
        assert (UN : forall d, entry_applies parse u key d -> d = (h, p, us)).
        { intros [[h' p'] us'] X. apply M in X. congruence. }
        destruct T as [T1 T2]. split.
        * destruct (emplace_head (h, p, us) v l) as [r' E']. rewrite E'. destruct l as [|[d w] l].
          -- exists pre, key, []. split; [reflexivity|]. split; [exact AP|]. split; [|intros e d' []].
             intros e d' I X. now apply T1 in X.
          -- destruct T1 as (b & k & a & -> & A & B1 & B2). destruct (compare (h, p, us) d) eqn:C.
             ++ apply compare_spec in C. exists (b ++ (k, w) :: a), key, []. split; [reflexivity|]. split; [exact AP|]. split; [|intros e d' []].
                intros e d' I X. apply in_app_or in I. destruct I as [I|[<-|I]].
                ** exact (below_trans1 _ _ _ C (B1 _ _ I X)).
                ** cbn [fst] in X. assert (Y : ~ below d d').
                   { intros Y.
                     assert (DU : d' = d) by (exact (applies_unique _ _ _ X A)).
                     subst d'. exact (below_asym _ _ Y Y). }
                   exact (below_trans1 _ _ _ C Y).
                ** exact (below_trans1 _ _ _ C (below_asym _ _ (B2 _ _ I X))).
             ++ assert (BL : below (h, p, us) d).
                { destruct (below_dec (h, p, us) d) as [X|X]; [exact X|]. apply compare_spec in X. congruence. }
                exists b, k, (a ++ [(key, v)]). split; [now rewrite <- app_assoc|]. split; [exact A|]. split; [exact B1|].
                intros e d' I X. apply in_app_or in I. destruct I as [I|[<-|[]]]; [exact (B2 e d' I X)|]. cbn [fst] in X. apply UN in X. now subst.
        * intros d w. rewrite emplace_In, T2. split.
          -- intros [E|(k & I & X)]; [injection E as -> ->; exists key; split; [apply in_or_app; right; now left|exact AP]|].
             exists k. split; [apply in_or_app; now left|exact X].
          -- intros (k & I & X). apply in_app_or in I. destruct I as [I|[E|[]]]; [right; eauto|]. injection E as <- <-. left. f_equal. now apply UN.
  Qed.
End Keys.
