(** C83: parameter targets. *)
From Coq Require Import Reals String Ascii List Arith ZArith Bool Lia Lra.
From Coq Require DecimalString DecimalNat.
From Verif Require Import Base.ListUpd Base.Res App.AppModel App.AppSpec.
Import ListNotations.

Lemma get_set {A} (m : smap A) k v k' : get (set m k v) k' = if String.eqb k' k then Some v else get m k'.
Proof.
  induction m as [|[a b] m IH]; simpl.
  - destruct (String.eqb k' k); reflexivity.
  - destruct (String.eqb_spec k a) as [->|N]; simpl.
    + destruct (String.eqb k' a); reflexivity.
    + destruct (String.eqb_spec k' a) as [->|N2]; [|exact IH]. destruct (String.eqb_spec a k); [congruence|reflexivity].
Qed.

Lemma app_assoc_s a b c : append (append a b) c = append a (append b c).
Proof. induction a; simpl; congruence. Qed.
Lemma app_nil_s a : append a "" = a.
Proof. induction a; simpl; congruence. Qed.

Definition opt (cur : option string) : string := match cur with None => EmptyString | Some t => t end.
Lemma split_tok d tok cur s : no_char d tok -> split_from d cur (append tok (String d s)) = append (opt cur) tok :: split_from d None s.
Proof.
  revert cur. induction tok as [|c tok IH]; intros cur H; simpl.
  - rewrite Ascii.eqb_refl, app_nil_s. reflexivity.
  - destruct H as [N H]. destruct (Ascii.eqb_spec c d); [congruence|]. rewrite IH by exact H. simpl. rewrite app_assoc_s. reflexivity.
Qed.
Lemma split_last d tok cur : no_char d tok -> tok <> EmptyString \/ cur <> None -> split_from d cur tok = [append (opt cur) tok].
Proof.
  revert cur. induction tok as [|c tok IH]; intros cur H G; simpl.
  - destruct cur; [simpl; rewrite app_nil_s; reflexivity|]. destruct G; congruence.
  - destruct H as [N H]. destruct (Ascii.eqb_spec c d); [congruence|]. rewrite IH; [|exact H|right; discriminate]. simpl. rewrite app_assoc_s. reflexivity.
Qed.
Lemma no_char_app c a b : no_char c a -> no_char c b -> no_char c (append a b).
Proof. induction a; simpl; intros; [assumption|]. intuition. Qed.
Lemma split_render lists leaf : Forall (no_char ":"%char) lists -> no_char ":"%char leaf -> leaf <> EmptyString ->
  split ":"%char (render lists leaf) = map (fun n => append "[" (append n "]")) lists ++ [leaf].
Proof.
  intros H L N. unfold split. induction H as [|n l Hn H IH]; simpl render.
  - rewrite split_last; [reflexivity|exact L|left; exact N].
  - change (map (fun n => append "[" (append n "]")) (n :: l) ++ [leaf]) with (append "[" (append n "]") :: (map (fun n => append "[" (append n "]")) l ++ [leaf])).
    rewrite <- IH. apply (split_tok ":"%char (append "[" (append n "]")) None). simpl. split; [discriminate|]. apply no_char_app; [exact Hn|]. simpl. split; [discriminate|exact I].
Qed.
Lemma len_app a b : String.length (append a b) = String.length a + String.length b.
Proof. induction a; simpl; congruence. Qed.
Lemma substring_front a b : substring 0 (String.length a) (append a b) = a.
Proof. induction a as [|c a IH]; simpl; [destruct b; reflexivity|]. f_equal. exact IH. Qed.
Lemma substring_back a b k : substring (String.length a) k (append a b) = substring 0 k b.
Proof. induction a as [|c a IH]; simpl; [reflexivity|exact IH]. Qed.
Lemma bracketed_name n : bracketed (append "[" (append n "]")) = Some n.
Proof.
  simpl. rewrite len_app, Nat.add_1_r. rewrite substring_back, substring_front. reflexivity.
Qed.

(** Descending: the update happens in the list the path leads to. *)
Lemma inner_lists lists : forall ps leaf v l, bracketed leaf = None -> leaf <> EmptyString -> lookup ps lists = Some (Sub l) ->
  forall l', set_value l leaf v = Ok l' -> exists ps', inner_set ps (map (fun n => append "[" (append n "]")) lists ++ [leaf]) v = Ok ps' /\ lookup ps' lists = Some (Sub l') /\
    forall q, ~ related lists q -> lookup ps' q = lookup ps q.
Proof.
  induction lists as [|n lists IH]; intros ps leaf v l B N L l' E.
  - simpl in *. injection L as ->. destruct (String.eqb_spec leaf ""); [contradiction|]. rewrite B. exists l'. split; [exact E|]. split; [reflexivity|].
    intros q H. exfalso. apply H. left. exists q. reflexivity.
  - assert (D : exists l1, get ps n = Some (Sub l1) /\ lookup l1 lists = Some (Sub l)).
    { simpl in L. destruct (get ps n) as [e|] eqn:G; [|discriminate]. destruct lists as [|m lists].
      - injection L as ->. exists l. split; [reflexivity|reflexivity].
      - destruct e; try discriminate. exists l0. split; [reflexivity|exact L]. }
    destruct D as [l1 [G L1]]. destruct (IH l1 leaf v l B N L1 l' E) as [l1' [E1 [A1 K1]]].
    exists (set ps n (Sub l1')). 
    change (map (fun n => append "[" (append n "]")) (n :: lists) ++ [leaf]) with (append "[" (append n "]") :: (map (fun n => append "[" (append n "]")) lists ++ [leaf])).
    assert (U : inner_set ps (append "[" (append n "]") :: (map (fun n => append "[" (append n "]")) lists ++ [leaf])) v = Ok (set ps n (Sub l1'))).
    { cbn [inner_set]. destruct (String.eqb_spec (append "[" (append n "]")) "") as [X|X]; [discriminate X|]. rewrite bracketed_name, G, E1. reflexivity. }
    split; [exact U|]. split.
    + cbn [lookup]. rewrite get_set, String.eqb_refl. destruct lists as [|m lists]; [simpl in A1; injection A1 as ->; reflexivity|exact A1].
    + intros q H. destruct q as [|m q]; [exfalso; apply H; right; exists (n :: lists); reflexivity|].
      cbn [lookup]. rewrite get_set. destruct (String.eqb_spec m n) as [->|X]; [|reflexivity].
      rewrite G. destruct q as [|m' q]; [exfalso; apply H; right; exists lists; reflexivity|].
      apply K1. intros [[r R]|[r R]]; apply H; [left; exists r|right; exists r]; simpl in *; congruence.
Qed.
Lemma inner_missing lists : forall ps leaf v, (forall l, lookup ps lists <> Some (Sub l)) -> inner_set ps (map (fun n => append "[" (append n "]")) lists ++ [leaf]) v = Throw.
Proof.
  induction lists as [|n lists IH]; intros ps leaf v H; [exfalso; apply (H ps); reflexivity|].
  change (map (fun n => append "[" (append n "]")) (n :: lists) ++ [leaf]) with (append "[" (append n "]") :: (map (fun n => append "[" (append n "]")) lists ++ [leaf])).
  cbn [inner_set]. destruct (String.eqb_spec (append "[" (append n "]")) "") as [X|X]; [discriminate X|]. rewrite bracketed_name.
  cbn [lookup] in H. destruct (get ps n) as [e|]; [|reflexivity]. destruct e; try reflexivity.
  destruct lists as [|m lists]; [exfalso; apply (H l); reflexivity|]. rewrite (IH l leaf v H). reflexivity.
Qed.

Lemma lookup_app ps p q l : lookup ps p = Some (Sub l) -> q <> [] -> lookup ps (p ++ q) = lookup l q.
Proof.
  revert ps. induction p as [|n p IH]; intros ps L Q; [simpl in L; injection L as ->; reflexivity|].
  cbn [lookup List.app] in *. destruct (get ps n) as [e|]; [|discriminate]. destruct p as [|m p].
  - injection L as ->. simpl. destruct q; [contradiction|reflexivity].
  - destruct e; try discriminate. apply IH; assumption.
Qed.
Lemma prefix_or (p q : list string) : related p q \/ ~ related p q.
Proof.
  revert q. induction p as [|a p IH]; intros q; [left; left; exists q; reflexivity|].
  destruct q as [|b q]; [left; right; exists (a :: p); reflexivity|].
  destruct (String.eqb_spec a b) as [->|N]; [destruct (IH q) as [[[r ->]|[r ->]]|H]|].
  - left; left; exists r; reflexivity.
  - left; right; exists r; reflexivity.
  - right. intros [[r R]|[r R]]; injection R as R; apply H; [left|right]; exists r; exact R.
  - right. intros [[r R]|[r R]]; injection R as R; congruence.
Qed.
(** Changing one entry [x] of the list at a path. *)
Lemma changed_one ps ps' lists l l' (x : string) :
  lookup ps lists = Some (Sub l) -> lookup ps' lists = Some (Sub l') -> (forall q, ~ related lists q -> lookup ps' q = lookup ps q) ->
  (forall n, n <> x -> get l' n = get l n) -> forall q, ~ related (lists ++ [x]) q -> lookup ps' q = lookup ps q.
Proof.
  intros L L' K H q R. destruct (prefix_or lists q) as [[[r ->]|[r E]]|N].
  - destruct r as [|n r]; [exfalso; apply R; right; exists [x]; rewrite app_nil_r; reflexivity|].
    rewrite (lookup_app ps lists (n :: r) l L), (lookup_app ps' lists (n :: r) l' L') by discriminate.
    cbn [lookup]. rewrite H; [reflexivity|]. intros ->. apply R. left. exists r. rewrite <- app_assoc. reflexivity.
  - exfalso. apply R. right. exists (r ++ [x]). rewrite E, <- app_assoc. reflexivity.
  - apply K. exact N.
Qed.

(** Importing a parameter whose target is "[A]:[B]:...:leaf" sets that entry of that sublist to the value and leaves every other entry of the definition alone; if the sublist does not exist it is refused. *)
Theorem C83_scalar : forall ps lists leaf v,
  Forall (no_char ":"%char) lists -> no_char ":"%char leaf -> leaf <> EmptyString -> bracketed leaf = None -> no_char "("%char leaf \/ no_char ")"%char leaf ->
  (forall l, lookup ps lists = Some (Sub l) ->
     exists ps', parse_inline ps (render lists leaf) v = Ok ps' /\ lookup ps' (lists ++ [leaf]) = Some (Double v) /\
       forall q, ~ related (lists ++ [leaf]) q -> lookup ps' q = lookup ps q) /\
  ((forall l, lookup ps lists <> Some (Sub l)) -> parse_inline ps (render lists leaf) v = Throw).
Proof.
  intros ps lists leaf v Hl Hleaf N B P. unfold parse_inline. rewrite split_render by assumption. split.
  - intros l L.
    assert (E : set_value l leaf v = Ok (set l leaf (Double v))).
    { unfold set_value. assert (F : forall c s, no_char c s -> find c s = None).
      { intros c s. induction s as [|a s IH]; simpl; [reflexivity|]. intros [Na Hs]. destruct (Ascii.eqb_spec a c); [congruence|]. rewrite IH by exact Hs. reflexivity. }
      destruct P as [P|P]; rewrite (F _ _ P); [reflexivity|]. destruct (find "("%char leaf); reflexivity. }
    destruct (inner_lists lists ps leaf v l B N L _ E) as [ps' [E' [L' K]]]. exists ps'. split; [exact E'|]. split.
    + rewrite (lookup_app ps' lists [leaf] _ L') by discriminate. cbn [lookup]. rewrite get_set, String.eqb_refl. reflexivity.
    + apply (changed_one ps ps' lists l _ leaf L L' K). intros n Hn. rewrite get_set. destruct (String.eqb_spec n leaf); [contradiction|reflexivity].
  - intros H. apply inner_missing. exact H.
Qed.

Lemma find_at c a b : no_char c a -> find c (append a (String c b)) = Some (String.length a).
Proof.
  induction a as [|x a IH]; simpl; [rewrite Ascii.eqb_refl; reflexivity|]. intros [N H]. destruct (Ascii.eqb_spec x c); [congruence|]. rewrite IH by exact H. reflexivity.
Qed.
Lemma substring_mid a b c : substring (String.length a) (String.length b) (append a (append b c)) = b.
Proof. rewrite substring_back. apply substring_front. Qed.

(** A target "[A]:...:name(k)" sets entry k of an existing array and nothing else; an index outside the array writes outside it. *)
Theorem C83_array : forall ps lists name ks k v l vec,
  Forall (no_char ":"%char) lists -> no_char ":"%char name -> no_char ":"%char ks -> no_char "("%char name -> no_char ")"%char name -> no_char ")"%char ks ->
  number ks = Some (Z.of_nat k) -> lookup ps lists = Some (Sub l) -> get l name = Some (Array vec) ->
  let target := render lists (append name (String "("%char (append ks ")"))) in
  (k < List.length vec -> exists ps' vec', parse_inline ps target v = Ok ps' /\ lookup ps' (lists ++ [name]) = Some (Array vec') /\
     List.length vec' = List.length vec /\ nth_error vec' k = Some v /\ (forall j, j <> k -> nth_error vec' j = nth_error vec j) /\
     forall q, ~ related (lists ++ [name]) q -> lookup ps' q = lookup ps q).
Proof.
  intros ps lists name ks k v l vec Hl Hn Hk N1 N2 N3 K L G target Hlt. unfold target, parse_inline.
  set (leaf := append name (String "("%char (append ks ")"))).
  assert (Hleaf : no_char ":"%char leaf). { unfold leaf. apply no_char_app; [exact Hn|]. simpl. split; [discriminate|]. apply no_char_app; [exact Hk|]. simpl. split; [discriminate|exact I]. }
  assert (N : leaf <> EmptyString) by (unfold leaf; destruct name; discriminate).
  assert (B : bracketed leaf = None).
  { unfold leaf. destruct name as [|a name]; [reflexivity|]. simpl.
    assert (X : forall s, s = append name (String "("%char (append ks ")")) -> match String.length s with 0 => None | S k0 => if String.eqb (substring k0 1 s) "]" then Some (substring 0 k0 s) else None end = None).
    { intros s ->. change (append name (String "("%char (append ks ")"))) with (append name (append (String "("%char ks) ")")). rewrite <- app_assoc_s, len_app, Nat.add_1_r, substring_back. reflexivity. }
    destruct a as [[] [] [] [] [] [] [] []]; try reflexivity; apply X; reflexivity. }
  rewrite split_render by assumption.
  destruct (upd vec k v) as [vec'|] eqn:U; [|exfalso; destruct (upd_some vec k v Hlt) as [w W]; congruence].
  assert (E : set_value l leaf v = Ok (set l name (Array vec'))).
  { unfold set_value, leaf. rewrite (find_at "("%char name _ N1).
    assert (F2 : find ")"%char (append name (String "("%char (append ks ")"))) = Some (String.length name + 1 + String.length ks)).
    { change (append name (String "("%char (append ks ")"))) with (append name (append (append "(" ks) (String ")"%char ""))). rewrite <- app_assoc_s. rewrite find_at.
      - rewrite len_app. simpl. f_equal. lia.
      - apply no_char_app; [exact N2|]. simpl. split; [discriminate|exact N3]. }
    rewrite F2. cbv zeta. rewrite substring_front, G.
    replace (Nat.leb (String.length name + 1 + String.length ks) (String.length name)) with false by (symmetry; apply Nat.leb_gt; lia).
    replace (String.length name + 1 + String.length ks - String.length name - 1) with (String.length ks) by lia.
    replace (substring (String.length name + 1) (String.length ks) (append name (String "("%char (append ks ")")))) with ks.
    2:{ symmetry. change (append name (String "("%char (append ks ")"))) with (append name (append "(" (append ks ")"))). rewrite <- app_assoc_s.
        replace (String.length name + 1) with (String.length (append name "(")) by (rewrite len_app; simpl; lia). apply substring_mid. }
    rewrite K. destruct (Z.ltb_spec (Z.of_nat k) 0); [lia|]. rewrite Nat2Z.id, U. reflexivity. }
  destruct (inner_lists lists ps leaf v l B N L _ E) as [ps' [E' [L' Q]]]. exists ps', vec'. split; [exact E'|]. split.
  { rewrite (lookup_app ps' lists [name] _ L') by discriminate. cbn [lookup]. rewrite get_set, String.eqb_refl. reflexivity. }
  split; [apply (upd_length vec k v); exact U|]. split; [apply (upd_nth_same vec k v); exact U|]. split; [intros j Hj; apply (upd_nth_other vec k v vec' j U); exact Hj|].
  apply (changed_one ps ps' lists l _ name L L' Q). intros n Hn'. rewrite get_set. destruct (String.eqb_spec n name); [contradiction|reflexivity].
Qed.
(** An index is read as written: the decimal text of a natural number, or of one with a sign, optionally after blanks. *)
Lemma digits_uint d : forall acc, digits (DecimalString.NilEmpty.string_of_uint d) (Some (Z.of_nat acc)) = Some (Z.of_nat (Nat.of_uint_acc d acc)).
Proof.
  induction d as [|d IH|d IH|d IH|d IH|d IH|d IH|d IH|d IH|d IH|d IH]; intros acc; [reflexivity|..];
    cbn [DecimalString.NilEmpty.string_of_uint Nat.of_uint_acc]; rewrite <- IH; cbn [digits];
    match goal with |- context [digit ?c] => let v := eval vm_compute in (digit c) in change (digit c) with v end; cbv beta iota; f_equal; f_equal;
    rewrite ?Nat2Z.inj_succ; rewrite Nat.tail_mul_spec; change 10%Z with (Z.of_nat 10); rewrite ?Nat2Z.inj_mul; lia.
Qed.
Theorem C83_numbers : forall n blanks, (forall c, List.In c (list_ascii_of_string blanks) -> c = " "%char) ->
  let text := DecimalString.NilEmpty.string_of_uint (Nat.to_uint n) in
  number (append blanks text) = Some (Z.of_nat n) /\ number (append blanks (String "-" text)) = Some (- Z.of_nat n)%Z /\ number (append blanks (String "+" text)) = Some (Z.of_nat n).
Proof.
  intros n blanks Hb text.
  assert (D : forall d, d <> Decimal.Nil -> digits (DecimalString.NilEmpty.string_of_uint d) None = Some (Z.of_nat (Nat.of_uint d))).
  { intros d Hd. unfold Nat.of_uint. rewrite <- digits_uint. destruct d; [contradiction|..]; reflexivity. }
  assert (NZ : Nat.to_uint n <> Decimal.Nil).
  { intros E. pose proof (DecimalNat.Unsigned.to_of (Nat.to_uint n)) as H. pose proof (DecimalNat.Unsigned.of_to n) as H1. rewrite E in H, H1. cbn in H, H1. subst n. cbn in E. discriminate. }
  assert (T : digits text None = Some (Z.of_nat n)). { unfold text. rewrite D by exact NZ. rewrite DecimalNat.Unsigned.of_to. reflexivity. }
  assert (P : forall s, number (append blanks s) = number s).
  { intros s. induction blanks as [|c b IH]; [reflexivity|]. cbn [append number]. rewrite (Hb c (or_introl eq_refl)). cbn [blank]. change (blank " "%char) with true. cbv iota. apply IH. intros c' H'. apply Hb. right. exact H'. }
  rewrite !P. split; [|split].
  - unfold text in *. destruct (Nat.to_uint n); [contradiction|..]; exact T.
  - cbn [number]. change (blank "-"%char) with false. change (Ascii.eqb "-"%char "-"%char) with true. cbv iota. rewrite T. reflexivity.
  - cbn [number]. change (blank "+"%char) with false. change (Ascii.eqb "+"%char "-"%char) with false. change (Ascii.eqb "+"%char "+"%char) with true. cbv iota. exact T.
Qed.
Print Assumptions C83_numbers.
Example C83_numbers_case : DecimalString.NilEmpty.string_of_uint (Nat.to_uint 120) = "120"%string /\ number "  -120" = Some (-120)%Z.
Proof. split; reflexivity. Qed.
(** The indices and names the array form accepts are not checked: an index past the end writes outside the array, and a target naming only sublists reads a token that is not there. *)
Theorem C83_unchecked_refuted : exists ps, parse_inline ps "[Loads]:Values(3)" 1%R = UB /\ parse_inline ps "[Loads]" 1%R = UB /\ parse_inline ps "[Loads]:Values(2)" 1%R <> UB.
Proof. exists [("Loads"%string, Sub [("Values"%string, Array [0%R; 0%R; 0%R])])]. split; [reflexivity|]. split; [reflexivity|]. discriminate. Qed.

Example C83_met : exists l, lookup [("Criteria"%string, Sub [("Angle"%string, Sub [("Load"%string, Array [1%R; 2%R]); ("E"%string, Double 3%R)])])] ["Criteria"%string; "Angle"%string] = Some (Sub l)
  /\ Forall (no_char ":"%char) ["Criteria"%string; "Angle"%string] /\ bracketed "E" = None /\ number "1" = Some (Z.of_nat 1) /\ get l "Load" = Some (Array [1%R; 2%R]).
Proof. eexists. split; [reflexivity|]. split; [|repeat split; reflexivity]. repeat constructor; simpl; repeat split; discriminate. Qed.

Print Assumptions C83_scalar.
Print Assumptions C83_array.
Print Assumptions C83_unchecked_refuted.
