(** Lemmas for Props/ResultAttrT.v *)
From Coq Require Import String Ascii List Arith Bool Lia.
From Verif.Base Require Import Py.
From Verif.Model Require Import ResultAttr.
From Verif.Spec Require Import Names.
Import ListNotations.
Open Scope string_scope.

(** Names of Python's own attributes begin with an underscore *)
Definition own_names (dunders : list string) : Prop :=
  Forall (fun d => exists s, d = String "_" s) dunders.

Definition public (name : string) : Prop := forall s, name <> String "_" s.

Lemma lookup_public d name : own_names d -> public name -> lookup d name = lookup [] name.
Proof.
  intros D P. unfold lookup. destruct find; [reflexivity|].
  replace (existsb (String.eqb name) d) with false; [reflexivity|]. symmetry. apply not_true_iff_false. intro H.
  apply existsb_exists in H. destruct H as (x & I & E). apply String.eqb_eq in E. subst x.
  unfold own_names in D. rewrite Forall_forall in D. destruct (D _ I) as (s & Hs). apply (P s), Hs.
Qed.

Lemma rsplit_spec s a b : rsplit s = Some (a, b) -> s = a ++ String "_" b.
Proof.
  revert a b. induction s as [|c s IH]; intros a b; cbn; [discriminate|].
  destruct (rsplit s) as [[a' b']|]; intro H.
  - injection H as <- <-. cbn. now rewrite (IH a' b' eq_refl).
  - destruct (Ascii.eqb_spec c "_"); [|discriminate]. injection H as <- <-. subst c. reflexivity.
Qed.

Lemma rsplit_none s : rsplit s = None -> forall a b, s <> a ++ String "_" b.
Proof.
  induction s as [|c s IH]; cbn; intros H a b E.
  - destruct a; discriminate.
  - destruct (rsplit s) as [[]|]; [discriminate|]. destruct (Ascii.eqb_spec c "_"); [discriminate|].
    destruct a as [|c' a]; cbn in E; injection E as -> E; [now apply n|]. now apply (IH eq_refl a b).
Qed.

Lemma mem_In s l : mem s l = true <-> In s l.
Proof.
  unfold mem. rewrite existsb_exists. split.
  - intros (x & I & E). apply String.eqb_eq in E. now subst.
  - intro I. exists s. split; [exact I|]. apply String.eqb_refl.
Qed.

Lemma convert_index_letters c i : convert_index c = Ok i <-> In (c, i) letters.
Proof.
  unfold convert_index, letters. split.
  - repeat match goal with |- context [(c =? ?x)%char] => destruct (Ascii.eqb_spec c x) end; subst; cbn; intro H;
      try discriminate; injection H as <-; cbn; tauto.
  - cbn [In]. intro H. repeat (destruct H as [H|H]; [injection H as <- <-; reflexivity|]). destruct H.
Qed.

Lemma convert_index_err c e : convert_index c = Err e -> e = ValueError.
Proof.
  unfold convert_index. repeat match goal with |- context [if ?b then _ else _] => destruct b end; congruence.
Qed.

Lemma unpack_ok s i j : unpack s = Ok (i, j) <->
  exists a b, s = String a (String b EmptyString) /\ In (a, i) letters /\ In (b, j) letters.
Proof.
  unfold unpack. split.
  - destruct s as [|a [|b [|]]]; try discriminate. intro H.
    destruct (convert_index a) as [i'|] eqn:A; cbn in H; [|discriminate]. destruct (convert_index b) as [j'|] eqn:B; cbn in H; [|discriminate].
    injection H as -> ->. exists a, b. split; [reflexivity|]. now rewrite <- !convert_index_letters.
  - intros (a & b & -> & A & B). apply convert_index_letters in A, B. rewrite A. cbn. rewrite B. reflexivity.
Qed.

Lemma unpack_err s e : unpack s = Err e -> e = ValueError.
Proof.
  unfold unpack. destruct s as [|a [|b [|]]]; try congruence. intro H.
  destruct (convert_index a) as [i'|] eqn:A; cbn in H.
  - destruct (convert_index b) as [j'|] eqn:B; cbn in H; [discriminate|]. injection H as <-. now apply convert_index_err in B.
  - injection H as <-. now apply convert_index_err in A.
Qed.

(** The head of the part before the last underscore *)
Lemma public_prefix a b : public (a ++ String "_" b) -> public a.
Proof. intros P s ->. exact (P _ eq_refl). Qed.

Definition alias (n0 : string) : string :=
  if n0 =? "Ψ" then "psi" else if n0 =? "Δ" then "delta" else if n0 =? "ρ" then "rho" else n0.

Lemma alias_cases n : (n = "Ψ" /\ alias n = "psi") \/ (n = "Δ" /\ alias n = "delta") \/ (n = "ρ" /\ alias n = "rho") \/
  (n <> "Ψ" /\ n <> "Δ" /\ n <> "ρ" /\ alias n = n).
Proof.
  unfold alias. destruct (String.eqb_spec n "Ψ"); [tauto|]. destruct (String.eqb_spec n "Δ"); [tauto|].
  destruct (String.eqb_spec n "ρ"); tauto.
Qed.

Lemma alias_public n : public n -> public (alias n).
Proof.
  intro P. destruct (alias_cases n) as [[_ ->]|[[_ ->]|[[_ ->]|(_ & _ & _ & ->)]]]; auto; intros s H; discriminate H.
Qed.

(** For a public name the result does not depend on Python's own attributes *)
Lemma get_attr_public d name : own_names d -> public name -> get_attr d name = get_attr [] name.
Proof.
  intros D P. unfold get_attr. rewrite lookup_public by auto. destruct (lookup [] name) eqn:L; [reflexivity|].
  unfold dunder_getattr.
  assert (E : forall n, public n -> (forall ij, element d n ij = element [] n ij) /\ getattribute d n = getattribute [] n).
  { intros n Pn. unfold element, getattribute. rewrite lookup_public by auto. auto. }
  assert (PU : forall c t, c <> "_"%char -> public (String c t)) by (intros c t Hc s Hs; injection Hs as -> _; now apply Hc).
  destruct (match rsplit name with Some (a, b) => (a, Some b) | None => (name, None) end) as [n0 suffix] eqn:S.
  assert (P0 : public n0).
  { destruct (rsplit name) as [[a b]|] eqn:RS; injection S as <- <-; [|exact P]. apply rsplit_spec in RS. subst name. now apply public_prefix in P. }
  fold (alias n0). apply alias_public in P0. set (n := alias n0) in *. clearbody n. cbv zeta.
  rewrite lookup_public by auto. destruct negb; [reflexivity|].
  destruct (match suffix with Some s => _ | None => _ end) as [ij|]; [cbn [rbind]|reflexivity].
  destruct (mem n ["psi"; "delta"; "rho"; "R"; "T"]) eqn:M1.
  { apply mem_In in M1. cbn in M1. repeat (destruct M1 as [<-|M1]; [destruct ij; apply E; apply PU; discriminate|]). destruct M1. }
  destruct (mem n ["r"; "rc"; "t"; "tc"]) eqn:M2.
  { destruct ij; apply E; apply PU; discriminate. }
  destruct (mem n ["Rc"; "Tc"]) eqn:M3.
  { apply mem_In in M3. cbn in M3. repeat (destruct M3 as [<-|M3]; [destruct ij; apply E; apply PU; discriminate|]). destruct M3. }
  destruct ij; [|reflexivity]. now apply E.
Qed.

Lemma names_public n x : In (n, x) whole_names -> public n.
Proof. unfold whole_names. cbn [In]. intro H. repeat (destruct H as [H|H]; [injection H as <- _; intros s Hs; discriminate Hs|]). destruct H. Qed.

Lemma matrix_names_public n x : In (n, x) matrix_names -> public n.
Proof. unfold matrix_names. cbn [In]. intro H. repeat (destruct H as [H|H]; [injection H as <- _; intros s Hs; discriminate Hs|]). destruct H. Qed.

Lemma suffixed_public n x a b : In (n, x) matrix_names -> public (suffixed n a b).
Proof. unfold matrix_names. cbn [In]. intro H. repeat (destruct H as [H|H]; [injection H as <- _; intros s Hs; discriminate Hs|]). destruct H. Qed.

Definition value_eqb (v w : value) : bool :=
  match v, w with
  | Whole a, Whole b => a =? b
  | Elem a i j, Elem b k l => (a =? b) && (i =? k)%nat && (j =? l)%nat
  | _, _ => false
  end.

Lemma value_eqb_eq v w : value_eqb v w = true -> v = w.
Proof.
  destruct v, w; cbn; try discriminate.
  - intro H. apply String.eqb_eq in H. now subst.
  - rewrite !andb_true_iff, !Nat.eqb_eq, String.eqb_eq. intros [[-> ->] ->]. reflexivity.
Qed.

Lemma whole_table : forall n a, In (n, a) whole_names -> get_attr [] n = Ok (Whole a).
Proof.
  assert (T : forallb (fun '(n, a) => match get_attr [] n with Ok v => value_eqb v (Whole a) | Err _ => false end) whole_names = true) by (vm_compute; reflexivity).
  rewrite forallb_forall in T. intros n a H. specialize (T _ H). cbn in T. destruct (get_attr [] n); [|discriminate].
  apply value_eqb_eq in T. now subst.
Qed.

Definition expected (p : string * (string * nat)) (a b : ascii * nat) : bool :=
  let '(n, (m, k)) := p in
  match get_attr [] (suffixed n (fst a) (fst b)) with
  | Ok v => (snd a <? k)%nat && (snd b <? k)%nat && value_eqb v (Elem m (snd a) (snd b))
  | Err IndexError => negb ((snd a <? k)%nat && (snd b <? k)%nat)
  | Err _ => false
  end.

Lemma elem_table : forall n m k a b i j, In (n, (m, k)) matrix_names -> In (a, i) letters -> In (b, j) letters ->
  get_attr [] (suffixed n a b) = if ((i <? k)%nat && (j <? k)%nat)%bool then Ok (Elem m i j) else Err IndexError.
Proof.
  assert (T : forallb (fun p => forallb (fun a => forallb (fun b => expected p a b) letters) letters) matrix_names = true) by (vm_compute; reflexivity).
  rewrite forallb_forall in T. intros n m k a b i j H A B. specialize (T _ H). rewrite forallb_forall in T. specialize (T _ A).
  rewrite forallb_forall in T. specialize (T _ B). unfold expected in T. cbn [fst snd] in T. destruct (get_attr [] (suffixed n a b)) as [v|e].
  - rewrite !andb_true_iff in T. destruct T as [[-> ->] T]. cbn. apply value_eqb_eq in T. now subst.
  - destruct e; try discriminate. apply negb_true_iff in T. now rewrite T.
Qed.

(** A name with a documented prefix and a suffix that is not two index letters *)
Lemma lookup_members n k : lookup [] n = Some k <-> In (n, k) members.
Proof.
  assert (E : lookup [] n = option_map snd (find (fun m => fst m =? n) members)) by (unfold lookup; destruct find; reflexivity).
  rewrite E. clear E. split.
  - destruct find as [[m k']|] eqn:F; cbn; [|discriminate]. intro H. injection H as <-. apply find_some in F. destruct F as [F G].
    cbn in G. apply String.eqb_eq in G. now subst.
  - assert (T : forallb (fun p => match find (fun m => fst m =? fst p) members with Some (_, KMat i) => match snd p with KMat j => (i =? j)%nat | _ => false end
       | Some (_, KVec) => match snd p with KVec => true | _ => false end | Some (_, KObj) => match snd p with KObj => true | _ => false end | None => false end) members = true) by (vm_compute; reflexivity).
    rewrite forallb_forall in T. intro H. specialize (T _ H). cbn [fst snd] in T. destruct find as [[m k']|]; [|discriminate]. cbn.
    destruct k', k; try discriminate; try reflexivity. apply Nat.eqb_eq in T. now subst.
Qed.

Definition others := ["experiment"; "get"; "as_delta_range"].
Definition known (n : string) : Prop := In n (map fst whole_names ++ others).

Lemma known_dec n : known n \/ ~ known n.
Proof. unfold known. destruct (in_dec string_dec n (map fst whole_names ++ others)); auto. Qed.

Lemma guard_known p : public p ->
  (mem (alias p) ["psi"; "delta"; "rho"; "r"; "t"; "rc"; "tc"; "Rc"; "Tc"] || match lookup [] (alias p) with Some _ => true | None => false end = true)%bool <-> known p.
Proof.
  intro P. rewrite orb_true_iff, mem_In. split.
  - destruct (alias_cases p) as [[-> _]|[[-> _]|[[-> _]|(_ & _ & _ & E)]]]; [intros _; unfold known; cbn; tauto .. |].
    rewrite E. intros [H|H].
    + unfold known; cbn in *. tauto.
    + destruct (lookup [] p) as [k|] eqn:L; [|discriminate]. apply lookup_members in L. unfold members in L. cbn [In] in L.
      unfold known; cbn. repeat (destruct L as [L|L]; [injection L as <- _; try (now exfalso; eapply P; reflexivity); tauto|]). destruct L.
  - unfold known. cbn [In map fst whole_names others app].
    intro H. repeat (destruct H as [<-|H]; [first [right; reflexivity | left; cbn; tauto]|]). destruct H.
Qed.

Arguments unpack : simpl never.

(** Python's dispatch on the part before the last underscore *)
Lemma dunder_split name p s : public p -> rsplit name = Some (p, s) ->
  (known p -> match unpack s with
     | Err e => dunder_getattr [] name = Err ValueError
     | Ok (i, j) =>
         match find (fun q => fst q =? p) matrix_names with
         | Some (_, (m, k)) => dunder_getattr [] name = if ((i <? k)%nat && (j <? k)%nat)%bool then Ok (Elem m i j) else Err IndexError
         | None => dunder_getattr [] name = Err IndexError \/ dunder_getattr [] name = Err TypeError
         end
     end) /\ (~ known p -> dunder_getattr [] name = Err AttributeError).
Proof.
  intros P S. assert (G := guard_known p P). unfold dunder_getattr. rewrite S. fold (alias p). cbv zeta.
  destruct (mem (alias p) _ || _)%bool eqn:B; cbn [negb].
  - split; intro K; [|exfalso; apply K, G; reflexivity]. assert (UE := unpack_err s). destruct (unpack s) as [[i j]|e]; cbn [rmap rbind].
    + unfold known in K. cbn [In map fst whole_names others app] in K.
      repeat (destruct K as [<-|K]; [cbn; first [reflexivity | left; reflexivity | right; reflexivity]|]). destruct K.
    + now rewrite (UE e eq_refl).
  - split; intro K; [|reflexivity]. apply G in K. discriminate.
Qed.

Lemma dunder_none name : public name -> rsplit name = None -> lookup [] name = None ->
  (known name -> exists a, In (name, a) whole_names /\ dunder_getattr [] name = Ok (Whole a)) /\
  (~ known name -> dunder_getattr [] name = Err AttributeError).
Proof.
  intros P S L. assert (G := guard_known name P). split; intro K.
  - unfold known in K. apply in_app_or in K. destruct K as [K|K].
    + apply in_map_iff in K. destruct K as ([n a] & <- & K). exists a. split; [exact K|]. cbn [fst] in *. apply whole_table in K. unfold get_attr in K. now rewrite L in K.
    + cbn in K. repeat (destruct K as [<-|K]; [discriminate L|]). destruct K.
  - unfold dunder_getattr. rewrite S. fold (alias name). cbv zeta. destruct (mem (alias name) _ || _)%bool eqn:B; cbn [negb]; [|reflexivity].
    exfalso. apply K, G. reflexivity.
Qed.

Lemma member_known name k : public name -> lookup [] name = Some k ->
  In (name, name) whole_names \/ In name others.
Proof.
  intros P L. apply lookup_members in L. unfold members in L. cbn [In] in L.
  repeat (destruct L as [L|L]; [injection L as <- _; first [exfalso; eapply P; reflexivity | left; cbn; tauto | right; cbn; tauto]|]). destruct L.
Qed.

Lemma find_matrix p q : find (fun q => fst q =? p) matrix_names = Some q -> fst q = p /\ In q matrix_names.
Proof. intro F. apply find_some in F. destruct F as [I E]. apply String.eqb_eq in E. auto. Qed.

Lemma rsplit_last s a b : rsplit s = Some (a, b) -> rsplit b = None.
Proof.
  revert a b. induction s as [|c s IH]; intros a b; cbn; [discriminate|].
  destruct (rsplit s) as [[a' b']|] eqn:S; intro H.
  - injection H as <- <-. exact (IH a' b' eq_refl).
  - destruct (Ascii.eqb_spec c "_"); [|discriminate]. injection H as <- <-. exact S.
Qed.

Lemma rsplit_no s : (forall u w, s <> u ++ String "_" w) -> rsplit s = None.
Proof. intro N. destruct (rsplit s) as [[a b]|] eqn:S; [|reflexivity]. exfalso. apply (N a b). now apply rsplit_spec. Qed.

Lemma rsplit_app p s : (forall u w, s <> u ++ String "_" w) -> rsplit (p ++ String "_" s) = Some (p, s).
Proof.
  intro N. apply rsplit_no in N. induction p as [|c p IH]; cbn.
  - now rewrite N.
  - now rewrite IH.
Qed.

Lemma known_split name : known name -> lookup [] name = None -> rsplit name = None.
Proof.
  unfold known. cbn [In map fst whole_names others app]. intros K L.
  repeat (destruct K as [<-|K]; [first [reflexivity | discriminate L]|]). destruct K.
Qed.
