(** C111: the data frames of dispersions. *)
From Coq Require Import Reals Lra Psatz Lia.
From Coquelicot Require Import Complex.
From Coq Require Import List Bool.
From Verif.Base Require Import Py Cx.
From Verif.Model Require Import Frames.
From Verif.Spec Require Import Rows.
From Verif.Proof Require Import FramesP.
Import ListNotations.
Open Scope R_scope.
Open Scope C_scope.
Open Scope py_scope.

(** C111: the frame for an array has one row per wavelength, with what is returned for this
    wavelength alone; it cannot be made exactly if one of the wavelengths raises alone. *)
Theorem C111_rows : forall d l conjugate F, get_dielectric_df d (WArr l) conjugate = Ok F <->
  index F = l /\ length (col1 F) = length l /\ length (col2 F) = length l /\
  forall i x, nth_error l i = Some x -> exists c, get_dielectric d (WNum x) = Ok (V0 c) /\
    nth_error (col1 F) i = Some (option_map Re c) /\
    nth_error (col2 F) i = Some (option_map (fun c => if conjugate then (- Im c)%R else Im c) c).
Proof. intros d l cj F. exact (frame_rows (get_dielectric d) l cj F (proj1 (dielectric_pointwise d l))). Qed.
Print Assumptions C111_rows.
Theorem C111_index_rows : forall d l conjugate F, get_refractive_index_df d (WArr l) conjugate = Ok F <->
  index F = l /\ length (col1 F) = length l /\ length (col2 F) = length l /\
  forall i x, nth_error l i = Some x -> exists c, get_refractive_index d (WNum x) = Ok (V0 c) /\
    nth_error (col1 F) i = Some (option_map Re c) /\
    nth_error (col2 F) i = Some (option_map (fun c => if conjugate then (- Im c)%R else Im c) c).
Proof. intros d l cj F. exact (frame_rows (get_refractive_index d) l cj F (proj1 (index_pointwise d l))). Qed.
Print Assumptions C111_index_rows.
Theorem C111_raises : forall d l conjugate,
  (exists F, get_dielectric_df d (WArr l) conjugate = Ok F) \/
  get_dielectric_df d (WArr l) conjugate = Err ValueError /\ exists x, In x l /\ get_dielectric d (WNum x) = Err ValueError.
Proof.
  intros d l cj. unfold get_dielectric_df. cbn [or_default]. destruct (proj1 (dielectric_pointwise d l)) as [(v & -> & _)|(-> & H)]; [left; eexists; reflexivity|right]. auto.
Qed.
Print Assumptions C111_raises.

(** C111: both frames exist together, for any argument and in both conventions, and in every row
    (n + ik)^2 = e1 + i e2. *)
Theorem C111_square : forall d w conjugate,
  match get_dielectric_df d w conjugate, get_refractive_index_df d w conjugate with
  | Ok F, Ok G => index F = index G /\ length (col1 F) = length (col1 G) /\ length (col2 F) = length (col2 G) /\
      forall i n k, nth_error (col1 G) i = Some n -> nth_error (col2 G) i = Some k ->
        match n, k with
        | Some n, Some k => exists e1 e2, nth_error (col1 F) i = Some (Some e1) /\ nth_error (col2 F) i = Some (Some e2) /\
            (n, k) * (n, k) = (e1, e2)
        | None, None => nth_error (col1 F) i = Some None /\ nth_error (col2 F) i = Some None
        | _, _ => False
        end
  | Err e, Err e' => e = e'
  | _, _ => False
  end.
Proof.
  intros d w cj. unfold get_dielectric_df, get_refractive_index_df. assert (B := both d (or_default d w)). destruct (get_dielectric d (or_default d w)) as [v|], (get_refractive_index d (or_default d w)) as [n|]; cbn [rbind]; try contradiction; [|exact B].
  assert (X : forall l : list R, let F := Frame l (column (length l) Re v) (column (length l) (second cj) v) in let G := Frame l (column (length l) Re n) (column (length l) (second cj) n) in
    index F = index G /\ length (col1 F) = length (col1 G) /\ length (col2 F) = length (col2 G) /\
      forall i n k, nth_error (col1 G) i = Some n -> nth_error (col2 G) i = Some k ->
        match n, k with
        | Some n, Some k => exists e1 e2, nth_error (col1 F) i = Some (Some e1) /\ nth_error (col2 F) i = Some (Some e2) /\ (n, k) * (n, k) = (e1, e2)
        | None, None => nth_error (col1 F) i = Some None /\ nth_error (col2 F) i = Some None
        | _, _ => False
        end).
  { intros l F G. unfold F, G. cbn [index col1 col2]. split; [reflexivity|].
    assert (S : spread (length l) v = map (option_map (fun m => m * m)) (spread (length l) n)).
    { destruct v as [e|e], n as [m|m]; cbn [square_of] in B; try contradiction; cbn [spread]; [|exact B]. subst e. clear. induction (length l); cbn; congruence. }
    assert (LE : length (spread (length l) v) = length (spread (length l) n)) by now rewrite S, map_length.
    assert (CL : forall f u, length (column (length l) f u) = length (spread (length l) u)) by (intros f [u|u]; cbn; [now rewrite !repeat_length|apply map_length]).
    rewrite !CL. split; [exact LE|]. split; [exact LE|]. intros i a b. rewrite !nth_column, S, nth_error_map. destruct (nth_error (spread (length l) n) i) as [[c|]|]; cbn [option_map]; [| |discriminate].
    - intros A B'. injection A as <-. injection B' as <-. eexists _, _. split; [reflexivity|]. split; [reflexivity|]. unfold second. destruct cj, c; cbn; unfold Cmult; cbn; f_equal; ring.
    - intros A B'. injection A as <-. injection B' as <-. auto. }
  destruct (or_default d w); cbn [make_frame]; try reflexivity; apply X.
Qed.
Print Assumptions C111_square.

(** C111: of a dispersion given by its dielectric function, n is not negative; for positive e2
    neither n nor k is. *)
Theorem C111_branch : forall d x c, kind_of d = KEps -> get_refractive_index d (WNum x) = Ok (V0 (Some c)) ->
  (0 <= Re c)%R /\ forall e, get_dielectric d (WNum x) = Ok (V0 (Some e)) -> (0 < Im e)%R -> (0 < Re c /\ 0 < Im c)%R.
Proof.
  intros d x c K H. unfold get_refractive_index in H. rewrite K in H. unfold get_dielectric. destruct (dielectric_function d (or_default d (WNum x))) as [[v|v]|] eqn:E; try discriminate. destruct v as [v|]; [|discriminate]. cbn in H. injection H as <-.
  assert (R0 := Csqrt_Re_ge0 v). split; [exact R0|]. intros e Q I. injection Q as <-. assert (S := Csqrt_sqr v). destruct (Csqrt v) as [a b]. apply (f_equal snd) in S. cbn in *. unfold Im in I. assert (2 * (a * b) = snd v)%R by lra.
  assert (A : (0 < a)%R) by (destruct R0 as [R0|R0]; [exact R0|subst a; lra]). split; [exact A|]. destruct (Rlt_dec 0 b) as [B|B]; [exact B|]. exfalso. assert (0 <= a * - b)%R by (apply Rmult_le_pos; lra). lra.
Qed.
Print Assumptions C111_branch.

(** C111: the flag changes the sign of the second column and nothing else. *)
Theorem C111_conjugate : forall d w F, get_dielectric_df d w false = Ok F ->
  get_dielectric_df d w true = Ok (Frame (index F) (col1 F) (map (option_map Ropp) (col2 F))).
Proof.
  intros d w F. unfold get_dielectric_df. destruct (get_dielectric d (or_default d w)) as [v|]; [|discriminate]. cbn [rbind].
  assert (X : forall l : list R, column (length l) (fun c => (- Im c)%R) v = map (option_map Ropp) (column (length l) Im v)).
  { intros l. destruct v as [c|m]; cbn; [induction (length l); cbn; [reflexivity|f_equal; [now destruct c|assumption]]|]. rewrite map_map. apply map_ext. now intros [c|]. }
  destruct (or_default d w); cbn [make_frame]; try discriminate; intros H; injection H as <-; cbn [index col1 col2]; now rewrite X.
Qed.
Print Assumptions C111_conjugate.

(** C111: without an argument the range is 200, 201, ..., 1000 nm, or the one of the table. *)
Lemma default_points : length default_range = 801%nat /\ forall i, (i < 801)%nat -> nth_error default_range i = Some (200 + INR i)%R.
Proof.
  unfold default_range. split; [rewrite map_length, seq_length; reflexivity|]. intros i Hi. rewrite nth_error_map. replace (nth_error (seq 0 801) i) with (Some i); [cbn [option_map]; f_equal; field|].
  symmetry. rewrite (nth_error_nth' _ 0%nat); [rewrite seq_nth by exact Hi; reflexivity|rewrite seq_length; exact Hi].
Qed.
Theorem C111_default : forall d conjugate F, get_dielectric_df d WNone conjugate = Ok F ->
  get_dielectric_df d (WArr (index F)) conjugate = Ok F /\
  ((forall k lo hi own f, d <> One k (Tab lo hi (Some own) f)) ->
   length (index F) = 801%nat /\ forall i, (i < 801)%nat -> nth_error (index F) i = Some (200 + INR i)%R).
Proof.
  intros d cj F H. assert (H' : get_dielectric_df d (WArr (default_of d)) cj = Ok F) by exact H. assert (I := proj1 (proj1 (C111_rows d (default_of d) cj F) H')). rewrite I. split; [exact H|]. intros N.
  assert (D : default_of d = default_range).
  { destruct d as [k [t c|f|lo hi [own|] f]| |]; try reflexivity. exfalso. exact (N k lo hi own f eq_refl). }
  rewrite D. exact default_points.
Qed.
Print Assumptions C111_default.
Theorem C111_table : forall k lo hi own f conjugate, Forall (fun x => (lo <= x <= hi)%R) own ->
  exists F, get_dielectric_df (One k (Tab lo hi (Some own) f)) WNone conjugate = Ok F /\ index F = own.
Proof.
  intros k lo hi own f cj H. change (get_dielectric_df (One k (Tab lo hi (Some own) f)) WNone cj) with (get_dielectric_df (One k (Tab lo hi (Some own) f)) (WArr own) cj). destruct (C111_raises (One k (Tab lo hi (Some own) f)) own cj) as [[F HF]|(_ & x & Hx & E)].
  - exists F. split; [exact HF|]. apply C111_rows in HF. apply HF.
  - exfalso. rewrite Forall_forall in H. specialize (H x Hx). assert (R : in_range lo hi x = true) by (unfold in_range; destruct (Rle_dec lo x), (Rle_dec x hi); tauto || lra). unfold get_dielectric in E. cbn in E. rewrite R in E. destruct k; discriminate.
Qed.
Print Assumptions C111_table.

(** C111: lists and tuples give the frame of the array for constants, tables and sums of them; for
    every other dispersion they raise, TypeError if the array has a frame. *)
Theorem C111_lists : forall d l conjugate,
  if takes_lists d then get_dielectric_df d (WSeq l) conjugate = get_dielectric_df d (WArr l) conjugate
  else (forall F, get_dielectric_df d (WSeq l) conjugate <> Ok F) /\
       forall F, get_dielectric_df d (WArr l) conjugate = Ok F -> get_dielectric_df d (WSeq l) conjugate = Err TypeError.
Proof.
  intros d l cj. unfold get_dielectric_df, get_dielectric. cbn [or_default].
  assert (X : (takes_lists d = true -> dielectric_function d (WSeq l) = dielectric_function d (WArr l)) /\
    (takes_lists d = false -> (forall v, dielectric_function d (WSeq l) <> Ok v) /\ forall v, dielectric_function d (WArr l) = Ok v -> dielectric_function d (WSeq l) = Err TypeError)).
  { assert (G : forall d0, (takes_lists d0 = true -> own_function d0 (WSeq l) = own_function d0 (WArr l)) /\
      (takes_lists d0 = false -> (forall v, own_function d0 (WSeq l) <> Ok v) /\ forall v, own_function d0 (WArr l) = Ok v -> own_function d0 (WSeq l) = Err TypeError)).
    { intros d0. split; [apply own_lists|]. intros T. split; [intros v; now apply own_no_lists_err|intros v; now apply own_no_lists]. }
    assert (SQ : forall d0, (takes_lists d0 = true -> rmap (vmap (fun n => n * n)) (own_function d0 (WSeq l)) = rmap (vmap (fun n => n * n)) (own_function d0 (WArr l))) /\
      (takes_lists d0 = false -> (forall v, rmap (vmap (fun n => n * n)) (own_function d0 (WSeq l)) <> Ok v) /\ forall v, rmap (vmap (fun n => n * n)) (own_function d0 (WArr l)) = Ok v -> rmap (vmap (fun n => n * n)) (own_function d0 (WSeq l)) = Err TypeError)).
    { intros d0. destruct (G d0) as [G1 G2]. split; [intros T; now rewrite (G1 T)|]. intros T. destruct (G2 T) as [G3 G4]. split.
      - intros v. destruct (own_function d0 (WSeq l)) as [a|]; [now specialize (G3 a)|discriminate].
      - intros v. destruct (own_function d0 (WArr l)) as [a|]; [|discriminate]. intros _. now rewrite (G4 a eq_refl). }
    destruct d as [[] s|[] ps|d]; [exact (G (One KEps s))|exact (SQ (One KIdx s))|exact (G (Total KEps ps))|exact (SQ (Total KIdx ps))|exact (G d)]. }
  destruct (takes_lists d) eqn:T; destruct X as [X1 X2].
  - rewrite (X1 eq_refl). destruct (dielectric_function d (WArr l)); reflexivity.
  - destruct (X2 eq_refl) as [X3 X4]. split.
    + intros F. destruct (dielectric_function d (WSeq l)) as [a|]; [now specialize (X3 a)|discriminate].
    + intros F. destruct (dielectric_function d (WArr l)) as [a|]; [|discriminate]. intros _. now rewrite (X4 a eq_refl).
Qed.
Print Assumptions C111_lists.
Theorem C111_number : forall d x conjugate,
  (forall v, get_dielectric d (WNum x) = Ok v -> get_dielectric_df d (WNum x) conjugate = Err TypeError) /\
  (forall e, get_dielectric d (WNum x) = Err e -> get_dielectric_df d (WNum x) conjugate = Err e).
Proof. intros d x cj. unfold get_dielectric_df. cbn [or_default]. split; intros y ->; reflexivity. Qed.
Print Assumptions C111_number.

(** Two dispersions: n = 3/2 + 1e4 / lambda^2 (Cauchy) and a table from 400 to 800 nm *)
Definition glass : disp := One KIdx (Arith (fun x => if Req_EM_T x 0 then None else Some (RtoC (3 / 2 + 10000 / (x * x))))).
Definition measured : disp := One KEps (Tab 400 800 (Some [400; 600; 800]%R) (fun x => Some (x / 200, 1)%R)).

(** C111, refuted: lists are accepted wherever arrays are. *)
Theorem C111_lists_refuted : exists d l F, get_dielectric_df d (WArr l) false = Ok F /\ get_dielectric_df d (WSeq l) false = Err TypeError.
Proof. exists glass, [400; 500]%R. eexists. split; reflexivity. Qed.
(** C111, refuted: get_dielectric returns a value for each wavelength. *)
Theorem C111_shape_refuted : exists d l c, length l = 2%nat /\ get_dielectric d (WArr l) = Ok (V0 c).
Proof. exists (One KEps (Const false (Some (RtoC 2)))), [400; 500]%R. eexists. split; reflexivity. Qed.
(** C111, refuted: a sum with a table has a default frame if the table has one. *)
Theorem C111_default_refuted : exists t F, get_dielectric_df t WNone false = Ok F /\
  get_dielectric_df (Total KEps [t; One KEps (Const false (Some (RtoC 1)))]) WNone false = Err ValueError.
Proof.
  destruct (C111_table KEps 400 800 [400; 600; 800]%R (fun x => Some (x / 200, 1)%R) false) as [F [HF _]]; [repeat constructor; lra|].
  exists measured, F. split; [exact HF|]. destruct (C111_raises (Total KEps [measured; One KEps (Const false (Some (RtoC 1)))]) default_range false) as [[G HG]|[E _]]; [|exact E].
  exfalso. apply C111_rows in HG. destruct HG as (_ & _ & _ & H). destruct (H 0%nat 200%R) as (c & Hc & _).
  - rewrite (proj2 default_points) by lia. f_equal. change (INR 0) with 0%R. ring.
  - unfold get_dielectric in Hc. cbn in Hc. unfold in_range in Hc. destruct (Rle_dec 400 200); [lra|]. discriminate.
Qed.
Print Assumptions C111_default_refuted.

(** The sum of a table and a constant at 400 and 500 nm, and the table of its own *)
Example C111_example : let d := Total KEps [measured; One KEps (Const false (Some (RtoC 1)))] in
  exists F G H, get_dielectric_df d (WArr [400; 500]%R) false = Ok F /\ get_dielectric_df d (WSeq [400; 500]%R) true = Ok G /\
    get_refractive_index_df d (WArr [400; 500]%R) false = Ok H /\
    nth_error (col1 F) 1 = Some (Some (7 / 2)%R) /\ nth_error (col2 F) 1 = Some (Some 1%R) /\ nth_error (col2 G) 1 = Some (Some (- (1))%R) /\
    exists n k, nth_error (col1 H) 1 = Some (Some n) /\ nth_error (col2 H) 1 = Some (Some k) /\ (n * n - k * k = 7 / 2)%R /\ (2 * n * k = 1)%R.
Proof.
  intros d. assert (R4 : in_range 400 800 400 = true) by (unfold in_range; destruct (Rle_dec 400 400), (Rle_dec 400 800); tauto || lra). assert (R5 : in_range 400 800 500 = true) by (unfold in_range; destruct (Rle_dec 400 500), (Rle_dec 500 800); tauto || lra).
  assert (E : exists F, get_dielectric_df d (WArr [400; 500]%R) false = Ok F /\ nth_error (col1 F) 1 = Some (Some (7 / 2)%R) /\ nth_error (col2 F) 1 = Some (Some 1%R)).
  { unfold get_dielectric_df, get_dielectric, d, measured. cbn. rewrite R4, R5. cbn. eexists. split; [reflexivity|]. cbn. split; do 2 f_equal; field. }
  destruct E as (F & HF & F1 & F2). assert (L := C111_lists d [400; 500]%R true). change (takes_lists d) with true in L. cbn iota in L. rewrite (C111_conjugate d _ F HF) in L.
  assert (Q := C111_square d (WArr [400; 500]%R) false). rewrite HF in Q. destruct (get_refractive_index_df d (WArr [400; 500]%R) false) as [H|] eqn:HH; [|contradiction]. destruct Q as (_ & L1 & L2 & Q).
  exists F, (Frame (index F) (col1 F) (map (option_map Ropp) (col2 F))), H. split; [exact HF|]. split; [exact L|]. split; [reflexivity|]. split; [exact F1|]. split; [exact F2|]. split; [cbn [col2]; rewrite nth_error_map, F2; reflexivity|].
  assert (A : nth_error (col1 H) 1 <> None) by (apply nth_error_Some; rewrite <- L1; apply nth_error_Some; congruence). assert (B : nth_error (col2 H) 1 <> None) by (apply nth_error_Some; rewrite <- L2; apply nth_error_Some; congruence).
  destruct (nth_error (col1 H) 1) as [n|] eqn:N; [|congruence]. destruct (nth_error (col2 H) 1) as [k|] eqn:K; [|congruence]. specialize (Q 1%nat n k N K). destruct n as [n|], k as [k|]; try contradiction.
  - destruct Q as (e1 & e2 & Q1 & Q2 & Q3). exists n, k. split; [reflexivity|]. split; [reflexivity|]. rewrite F1 in Q1. rewrite F2 in Q2. injection Q1 as <-. injection Q2 as <-. assert (Q4 := f_equal fst Q3). assert (Q5 := f_equal snd Q3). cbn in Q4, Q5. split; lra.
  - destruct Q as [Q _]. congruence.
Qed.
