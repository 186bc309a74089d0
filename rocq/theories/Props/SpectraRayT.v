(** C53: dielectric functions of SpectraRay. *)
From Coq Require Import Ascii String List Arith Bool Reals Lia Lra.
From Coquelicot Require Import Complex.
From Coq Require Import List.
From Verif.Base Require Import Py Cx.
From Verif.Model Require Import FormulaText Regex TextTable Units Tables SpectraRayTable.
From Verif.Spec Require Import SpectraRayFile.
From Verif.Proof Require Import SpectraRayP.
Import ListNotations.
Open Scope char_scope.
Open Scope list_scope.

Section C53.
Variable num : text -> option R.
Variables c h : R.

(** What is read of a file before its unit is looked at *)
Lemma file_rows file unit rows : spectraray file unit rows ->
  exists start n, markers file = (start, start + n, Some unit)%nat /\ csv_rows start n file = map (fun '(x, y, z) => [x; y; z]) rows.
Proof.
  intros ((head & b & data & e & tail & E & B & EN & F & D) & (pre & u & post & E2 & P & N & O)).
  exists (S (length head)), (length data). split.
  - rewrite (surjective_pairing (markers file)). f_equal.
    + rewrite E. now apply markers_file.
    + rewrite E2. now apply markers_unit.
  - unfold csv_rows. rewrite E. change (head ++ b :: data ++ e :: tail) with (head ++ [b] ++ data ++ e :: tail). rewrite app_assoc.
    replace (S (length head)) with (length (head ++ [b])) by (rewrite app_length; cbn; lia).
    rewrite skipn_app, skipn_all, Nat.sub_diag. cbn [app skipn]. now apply data_fields.
Qed.

(** A file of photon energies: every line between the markers is a row of the table, and no other *)
Theorem C53_energy_partial : forall file unit rows (vs : list (R * R * R)),
  spectraray file unit rows -> unit <> letters "Wavelength" -> vs <> [] ->
  Forall2 (fun '(x, y, z) '(e, re, im) => num x = Some e /\ num y = Some re /\ num z = Some im /\ e <> 0%R) rows vs ->
  load_dispersion_table num c h file = Ok (Some (map (fun '(e, re, im) => ((c * h / (e * / 10 ^ 9))%R, ((re, im) : C))) vs)).
Proof.
  intros file unit rows vs S U NE F. destruct (file_rows _ _ _ S) as (start & n & M & RW). unfold load_dispersion_table. rewrite M.
  assert (L : (start + n <? start)%nat = false) by (apply Nat.ltb_ge; lia). rewrite L.
  replace (start + n - start)%nat with n by lia. rewrite RW.
  assert (U' : same unit (chars "Wavelength") = false).
  { destruct (same unit (chars "Wavelength")) eqn:X; [|reflexivity]. apply same_iff in X. contradiction. }
  rewrite U'.
  assert (W : Forall (fun '(x, y, z) => a_word x /\ a_word y /\ a_word z) rows).
  { destruct S as ((head & b & data & e & tail & _ & _ & _ & _ & D) & _). clear -D.
    induction D as [|l [[x y] z] data rows T D IH]; constructor; auto. destruct T as (X & Y & Z & _). auto. }
  assert (X : numbers (nth_column num 0 (map (fun '(x, y, z) => [x; y; z]) rows)) = Ok (Some (map (fun v => fst (fst v)) vs)) /\
              numbers (nth_column num 1 (map (fun '(x, y, z) => [x; y; z]) rows)) = Ok (Some (map (fun v => snd (fst v)) vs)) /\
              numbers (nth_column num 2 (map (fun '(x, y, z) => [x; y; z]) rows)) = Ok (Some (map snd vs))).
  { unfold nth_column. split; [|split]; apply column_numbers; rewrite map_map;
      (clear -F W; induction F as [|[[x y] z] [[e re] im] rows vs (A & B & C & _) F IH]; cbn [map]; [apply Forall2_nil|
       destruct (Forall_inv W) as ((WX & _) & (WY & _) & (WZ & _)); apply Forall_inv_tail in W; constructor; [|now apply IH]; cbn; split; [|assumption]; assumption]). }
  destruct X as (X0 & X1 & X2). rewrite X0, X1, X2. cbn [rbind].
  destruct F as [|[[x y] z] [[e re] im] rows vs A F]; [congruence|]. cbn [map].
  rewrite to_wavelengths_ok.
  - set (l := (e, re, im) :: vs). change (fst (fst (e, re, im)) :: map (fun v => fst (fst v)) vs) with (map (fun v => fst (fst v)) l).
    change (snd (fst (e, re, im)) :: map (fun v => snd (fst v)) vs) with (map (fun v => snd (fst v)) l).
    change (snd (e, re, im) :: map snd vs) with (map snd l). rewrite map_map.
    assert (T : forall m : list (R * R * R), combine (map (fun v => (c * h / (fst (fst v) * / 10 ^ 9))%R) m)
      (map (fun '(a, b) => (a, b) : C) (combine (map (fun v => snd (fst v)) m) (map snd m))) =
      map (fun '(e, re, im) => ((c * h / (e * / 10 ^ 9))%R, (re, im))) m).
    { induction m as [|[[? ?] ?] m IH]; [reflexivity|]. cbn [map combine fst snd]. now rewrite IH. }
    unfold table. rewrite !map_length, combine_length, !map_length, Nat.min_id, Nat.eqb_refl. rewrite T. reflexivity.
  - constructor; [cbn; tauto|]. clear -F. induction F as [|[[x y] z] [[e re] im] rows vs (_ & _ & _ & Z) F IH]; constructor; auto.
Qed.

(** A file of wavelengths cannot be loaded *)
Theorem C53_wavelength : forall file rows, spectraray file (letters "Wavelength") rows -> load_dispersion_table num c h file = Err ValueError.
Proof.
  intros file rows S. destruct (file_rows _ _ _ S) as (start & n & M & _). unfold load_dispersion_table. rewrite M.
  assert (L : (start + n <? start)%nat = false) by (apply Nat.ltb_ge; lia). rewrite L. reflexivity.
Qed.

(** A file without a line that names the unit, but for the first *)
Theorem C53_no_unit : forall l rest, Forall other rest -> load_dispersion_table num c h (l :: rest) = Err UnboundLocalError.
Proof.
  intros l rest O. unfold load_dispersion_table, markers. rewrite scan_parts, unit_none by exact O. reflexivity.
Qed.
End C53.
Print Assumptions C53_energy_partial.
Print Assumptions C53_wavelength.
Print Assumptions C53_no_unit.

(** Concrete files, with numbers of one digit *)
Definition one_digit (t : text) : option R :=
  match t with [d] => if is_digit d then Some (INR (nat_of_ascii d - 48)) else None | _ => None end.
Definition lines_of (l : list string) : list text := map (fun s => chars s ++ [newline]) l.

Lemma spectraray_example unit : ~ In "=" unit -> ~ In "," unit ->
  spectraray (lines_of ["###### File Layer=3"%string; "Name=Silicon"%string] ++ (chars "Units=" ++ unit ++ chars ",E1E2" ++ [newline]) ::
    lines_of ["Comment="%string; " Begin of array"%string; " 2  5 1"%string; "3   6   2 "%string; "End of array"%string; "Object End"%string]) unit
    [(chars "2", chars "5", chars "1"); (chars "3", chars "6", chars "2")].
Proof.
  intros NE NC. 
  assert (N : forall w s, w = "Begin of array"%string \/ w = "End of array"%string -> is_begin s = false -> is_end s = false -> ~ says w s).
  { intros w s [->| ->] A B X; [apply is_begin_iff in X|apply is_end_iff in X]; congruence. }
  assert (UL : is_begin (chars "Units=" ++ unit ++ chars ",E1E2" ++ [newline]) = false /\ is_end (chars "Units=" ++ unit ++ chars ",E1E2" ++ [newline]) = false).
  { split; apply not_true_iff_false; intros X; [apply is_begin_iff in X|apply is_end_iff in X]; destruct X as (a & b & X & A & _);
      (destruct a as [|d a]; [discriminate X|]; injection X as X _; inversion A as [|? ? W _]; subst;
       destruct W as [[W|W]|W]; [discriminate W|discriminate W|cbn in W; repeat (destruct W as [W|W]; [discriminate W|]); destruct W]). }
  assert (P : forall l, is_begin l = false /\ is_end l = false -> ~ says "Begin of array" l /\ ~ says "End of array" l).
  { intros l [A B]. split; apply N; auto. }
  assert (D : forall d, is_digit d = true -> a_word [d]).
  { intros d H. split; [discriminate|]. constructor; [|constructor]. intros W. apply is_space_iff in W.
    destruct d as [[] [] [] [] [] [] [] []]; discriminate. }
  split.
  - exists (lines_of ["###### File Layer=3"%string; "Name=Silicon"%string] ++ (chars "Units=" ++ unit ++ chars ",E1E2" ++ [newline]) :: lines_of ["Comment="%string]),
      (chars " Begin of array" ++ [newline]), (lines_of [" 2  5 1"%string; "3   6   2 "%string]), (chars "End of array" ++ [newline]), (lines_of ["Object End"%string]).
    split; [reflexivity|]. split; [now apply is_begin_iff|]. split; [now apply is_end_iff|]. split.
    + repeat (apply Forall_cons || apply Forall_app || split || apply Forall_nil); apply P; auto; split; reflexivity.
    + constructor; [|constructor; [|constructor]].
      * split; [now apply D|]. split; [now apply D|]. split; [now apply D|]. exists [" "], [" "; " "], [" "], [], ["010"].
        repeat split; auto; try discriminate; repeat constructor.
      * split; [now apply D|]. split; [now apply D|]. split; [now apply D|]. exists [], [" "; " "; " "], [" "; " "; " "], [" "], ["010"].
        repeat split; auto; try discriminate; repeat constructor.
  - eexists (lines_of ["###### File Layer=3"%string; "Name=Silicon"%string]), _, _. split; [reflexivity|]. split; [discriminate|]. split.
    + exists (chars "E1E2" ++ [newline]). split; [reflexivity|]. auto.
    + repeat constructor; intros (more & X); discriminate X.
Qed.

Example C53_example : exists file rows vs, spectraray file (letters "eV") rows /\
  Forall2 (fun '(x, y, z) '(e, re, im) => one_digit x = Some e /\ one_digit y = Some re /\ one_digit z = Some im /\ e <> 0%R) rows vs /\ length vs = 2%nat.
Proof.
  eexists _, _, [(INR 2, INR 5, INR 1); (INR 3, INR 6, INR 2)]. split; [apply (spectraray_example (letters "eV")); cbn; intuition discriminate|].
  split; [|reflexivity]. repeat constructor; cbn; lra.
Qed.

(** Wavelengths cannot be loaded *)
Theorem C53_wavelength_refuted : exists file rows, spectraray file (letters "Wavelength") rows /\ length rows = 2%nat /\
  forall num c h, load_dispersion_table num c h file = Err ValueError.
Proof.
  eexists _, _. assert (S := spectraray_example (letters "Wavelength")). split; [apply S; cbn; intuition discriminate|]. split; [reflexivity|].
  intros num c h. eapply C53_wavelength. apply S; cbn; intuition discriminate.
Qed.
Print Assumptions C53_wavelength_refuted.

(** Without a comma the newline belongs to the unit, and wavelengths are taken for photon energies *)
Definition without_comma : list text := lines_of ["Layer"%string; "Units=Wavelength"%string; "Begin of array"%string; "2 5 1"%string; "3 6 2"%string; "End of array"%string].
Theorem C53_comma_refuted : exists file, nth 1 file [] = letters "Units=Wavelength" ++ ["010"] /\
  load_dispersion_table one_digit 1 1 file =
    Ok (Some [((1 * 1 / (INR 2 * / 10 ^ 9))%R, ((INR 5, INR 1) : C)); ((1 * 1 / (INR 3 * / 10 ^ 9))%R, ((INR 6, INR 2) : C))]).
Proof.
  exists without_comma. split; [reflexivity|]. unfold load_dispersion_table.
  change (markers without_comma) with (3%nat, 5%nat, Some (chars "Wavelength" ++ [newline])). cbv iota beta.
  change (csv_rows 3 (5 - 3) without_comma) with [[chars "2"; chars "5"; chars "1"]; [chars "3"; chars "6"; chars "2"]].
  change ((5 <? 3)%nat) with false. change (same (chars "Wavelength" ++ [newline]) (chars "Wavelength")) with false. cbv iota.
  change (numbers (nth_column one_digit 0 [[chars "2"; chars "5"; chars "1"]; [chars "3"; chars "6"; chars "2"]])) with (Ok (Some [INR 2; INR 3])).
  change (numbers (nth_column one_digit 1 [[chars "2"; chars "5"; chars "1"]; [chars "3"; chars "6"; chars "2"]])) with (Ok (Some [INR 5; INR 6])).
  change (numbers (nth_column one_digit 2 [[chars "2"; chars "5"; chars "1"]; [chars "3"; chars "6"; chars "2"]])) with (Ok (Some [INR 1; INR 2])).
  cbn [rbind]. rewrite to_wavelengths_ok; [reflexivity|]. repeat constructor; cbn; lra.
Qed.
Print Assumptions C53_comma_refuted.

(** A blank line between the markers: the end marker is read as a row *)
Definition with_blank : list text := lines_of ["Layer"%string; "Units=eV,E1E2"%string; "Begin of array"%string; "2 5 1"%string; ""%string; "3 6 2"%string; "End of array"%string].
Theorem C53_blank_refuted : exists file head data tail b e,
  file = head ++ b :: data ++ e :: tail /\ says "Begin of array" b /\ says "End of array" e /\
  Forall (fun l => (exists x y z, three l x y z /\ one_digit x <> None /\ one_digit y <> None /\ one_digit z <> None) \/ l = ["010"]) data /\
  forall c h, load_dispersion_table one_digit c h file = Err TypeError.
Proof.
  exists with_blank, (lines_of ["Layer"%string; "Units=eV,E1E2"%string]), (lines_of ["2 5 1"%string; ""%string; "3 6 2"%string]), [], (chars "Begin of array" ++ [newline]), (chars "End of array" ++ [newline]).
  assert (D : forall d, is_digit d = true -> a_word [d]).
  { intros d H. split; [discriminate|]. constructor; [|constructor]. intros W. apply is_space_iff in W.
    destruct d as [[] [] [] [] [] [] [] []]; discriminate. }
  split; [reflexivity|]. split; [now apply is_begin_iff|]. split; [now apply is_end_iff|]. split.
  - constructor; [left|constructor; [right; reflexivity|constructor; [left|constructor]]].
    + exists ["2"], ["5"], ["1"]. repeat split; try (now apply D); try discriminate; try (repeat constructor; discriminate). exists [], [" "], [" "], [], ["010"].
      repeat split; auto; try discriminate; repeat constructor.
    + exists ["3"], ["6"], ["2"]. repeat split; try (now apply D); try discriminate. exists [], [" "], [" "], [], ["010"].
      repeat split; auto; try discriminate; repeat constructor.
  - intros c h. reflexivity.
Qed.
Print Assumptions C53_blank_refuted.
