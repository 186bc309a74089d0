(** C55: materials of NeXus files. *)
From Coq Require Import Reals String List Arith Bool Lia Lra.
From Coquelicot Require Import Complex.
From Coq Require Import List.
From Verif.Base Require Import Py Cx.
From Verif.Model Require Import DispAdd Tables Nexus.
From Verif.Spec Require Import Adding NexusFile.
From Verif.Proof Require Import DispAddP DispAddP2 NexusP.
Import ListNotations.
Open Scope list_scope.

Section C55.
Variable Fn : Type.
Variable formula : kind -> Fn -> res (R -> option C).

Lemma group_ok g f h : has_permittivity Fn formula g f -> inv h ->
  exists h' s, get_dispersion Fn formula h None g = (h', Ok (Some s)) /\ keeps h h' /\ inv h' /\ (s < length h')%nat /\
    forall lbda, get_dielectric h' s lbda = f lbda.
Proof.
  intros (k & vs & D & NE & NT & V) I. destruct (get_dispersion_ok Fn formula g k vs h D NE NT I) as (h' & s & E & K & I' & L & Q).
  exists h', s. split; [exact E|]. split; [exact K|]. split; [exact I'|]. split; [lia|]. intros lbda. now rewrite Q, V.
Qed.

Lemma entry_ok e s fx fy fz h : means Fn formula e s fx fy fz -> inv h ->
  exists h' m, get_material Fn formula h e = (h', Ok m) /\ keeps h h' /\ inv h' /\ shape_of m = s /\
    forall h'' lbda, keeps h' h'' -> inv h'' -> diagonal h'' m lbda = (fx lbda, fy lbda, fz lbda).
Proof.
  intros M I. destruct M as [x fx PX|x z fx fz PX PZ|x y z fx fy fz PX PY PZ]; unfold get_material; cbn [group_x group_y group_z axis].
  - destruct (group_ok x fx h PX I) as (h1 & a & E & K & I1 & L & V). rewrite E. cbn. exists h1, (Isotropic a).
    split; [reflexivity|]. split; [exact K|]. split; [exact I1|]. split; [reflexivity|]. intros h'' lbda K' I'. cbn.
    now rewrite (keeps_dielectric h1 h'' a lbda K' I1 I' L), V.
  - destruct (group_ok x fx h PX I) as (h1 & a & E & K & I1 & L & V). rewrite E.
    destruct (group_ok z fz h1 PZ I1) as (h2 & c & E2 & K2 & I2 & L2 & V2). rewrite E2. cbn. exists h2, (Uniaxial a c).
    split; [reflexivity|]. split; [eapply keeps_trans; eauto|]. split; [exact I2|]. split; [reflexivity|]. intros h'' lbda K' I'. cbn.
    rewrite (keeps_dielectric h2 h'' c lbda K' I2 I' L2), V2.
    now rewrite (keeps_dielectric h1 h'' a lbda (keeps_trans _ _ _ K2 K') I1 I' L), V.
  - destruct (group_ok x fx h PX I) as (h1 & a & E & K & I1 & L & V). rewrite E.
    destruct (group_ok y fy h1 PY I1) as (h2 & b & E2 & K2 & I2 & L2 & V2). rewrite E2.
    destruct (group_ok z fz h2 PZ I2) as (h3 & c & E3 & K3 & I3 & L3 & V3). rewrite E3. cbn. exists h3, (Biaxial a b c).
    split; [reflexivity|]. split; [eapply keeps_trans; [exact K|eapply keeps_trans; eauto]|]. split; [exact I3|]. split; [reflexivity|].
    intros h'' lbda K' I'. cbn. rewrite (keeps_dielectric h3 h'' c lbda K' I3 I' L3), V3.
    rewrite (keeps_dielectric h2 h'' b lbda (keeps_trans _ _ _ K3 K') I2 I' L2), V2.
    now rewrite (keeps_dielectric h1 h'' a lbda (keeps_trans _ _ _ K2 (keeps_trans _ _ _ K3 K')) I1 I' L), V.
Qed.

(** A file in which every entry has dispersions for x, for x and z, or for all axes, whose groups can be added *)
Definition meaning : Type := shape * (R -> option C) * (R -> option C) * (R -> option C).
Theorem C55_file_partial : forall (entries : list (string * entry Fn)) (ws : list meaning),
  Forall2 (fun e '(s, fx, fy, fz) => means Fn formula (snd e) s fx fy fz) entries ws ->
  exists h ms, read_materials Fn formula [] entries = (h, Ok ms) /\ map fst ms = map fst entries /\
    Forall2 (fun m '(s, fx, fy, fz) => shape_of (snd m) = s /\ forall lbda, diagonal h (snd m) lbda = (fx lbda, fy lbda, fz lbda)) ms ws.
Proof.
  intros entries ws F.
  assert (G : forall h, inv h -> exists h' ms, read_materials Fn formula h entries = (h', Ok ms) /\ keeps h h' /\ inv h' /\
    map fst ms = map fst entries /\
    Forall2 (fun m '(s, fx, fy, fz) => shape_of (snd m) = s /\
      forall h'' lbda, keeps h' h'' -> inv h'' -> diagonal h'' (snd m) lbda = (fx lbda, fy lbda, fz lbda)) ms ws).
  { induction F as [|[name e] [[[s fx] fy] fz] entries ws M F IH]; intros h I.
    - exists h, []. split; [reflexivity|]. split; [apply keeps_refl|]. split; [exact I|]. split; [reflexivity|constructor].
    - cbn [snd] in M. destruct (entry_ok e s fx fy fz h M I) as (h1 & m & E & K & I1 & SH & V).
      destruct (IH h1 I1) as (h2 & ms & E2 & K2 & I2 & N & Q). exists h2, ((name, m) :: ms). cbn [read_materials]. rewrite E, E2.
      split; [reflexivity|]. split; [eapply keeps_trans; eauto|]. split; [exact I2|]. split; [cbn; now rewrite N|].
      constructor; [|exact Q]. cbn. split; [exact SH|]. intros h'' lbda K' I'. apply V; [eapply keeps_trans; eauto|exact I']. }
  destruct (G [] inv_nil) as (h & ms & E & _ & I & N & Q). exists h, ms. split; [exact E|]. split; [exact N|].
  clear -Q I. induction Q as [|m [[[s fx] fy] fz] ms ws [A B] Q IH]; constructor; [|exact IH]. split; [exact A|].
  intros lbda. apply B; [apply keeps_refl|exact I].
Qed.

(** No dispersion for x *)
Theorem C55_without_x : forall h (e : entry Fn), group_x e = None -> get_material Fn formula h e = (h, Err ValueError).
Proof. intros h e E. unfold get_material. now rewrite E. Qed.

(** Dispersions for x and y only *)
Theorem C55_x_and_y : forall h x y fx fy, inv h -> has_permittivity Fn formula x fx -> has_permittivity Fn formula y fy ->
  exists h', get_material Fn formula h (Entry (Some x) (Some y) None) = (h', Err KeyError).
Proof.
  intros h x y fx fy I PX PY. unfold get_material. cbn [group_x group_y group_z axis].
  destruct (group_ok x fx h PX I) as (h1 & a & E & _ & I1 & _). rewrite E.
  destruct (group_ok y fy h1 PY I1) as (h2 & b & E2 & _). rewrite E2. eexists. reflexivity.
Qed.

(** A group without a dispersion, and a group that begins with two tables *)
Theorem C55_empty_group : forall h x, Forall (fun c => c = OtherClass) x ->
  get_material Fn formula h (Entry (Some x) None None) = (h, Err TypeError).
Proof. intros h x F. unfold get_material. cbn [group_x group_y group_z axis]. rewrite get_dispersion_none by exact F. reflexivity. Qed.

Theorem C55_two_tables : forall h x k vs, describes Fn formula x k vs -> two_tables vs ->
  exists h', get_material Fn formula h (Entry (Some x) None None) = (h', Err NotImplementedError).
Proof.
  intros h x k vs D T. unfold get_material. cbn [group_x group_y group_z axis].
  destruct (get_dispersion_tables Fn formula x k vs h D T) as (h' & E). rewrite E. eauto.
Qed.

(** Fields that are not understood *)
Theorem C55_function_errors : forall (f : nx_function Fn),
  (wavelength_identifier f = false \/ wavelength_unit f = true) ->
  (energy_identifier f = true -> get_dispersion_function Fn formula f = Err NotImplementedError) /\
  (forall r d, energy_identifier f = false -> representation f = Some r -> formula_data f = Some d -> r <> "eps"%string -> r <> "n"%string ->
     get_dispersion_function Fn formula f = Err ValueError) /\
  (forall r d, energy_identifier f = false -> representation f = Some r -> formula_data f = Some d -> r = "eps"%string \/ r = "n"%string ->
     wavelength_identifier f = false -> get_dispersion_function Fn formula f = Err UnboundLocalError).
Proof.
  intros f H. unfold get_dispersion_function.
  assert (U : exists u, (if wavelength_identifier f then (if wavelength_unit f then Ok true else Err KeyError) else Ok false) = Ok u /\
    (wavelength_identifier f = false -> u = false)).
  { destruct (wavelength_identifier f); [|eauto]. destruct H as [[=]| ->]. exists true. split; [reflexivity|discriminate]. }
  destruct U as (u & U & UF). rewrite U. cbn [rbind]. split; [intros ->; reflexivity|]. split.
  - intros r d -> -> -> N1 N2. cbn [rbind]. apply String.eqb_neq in N1, N2. now rewrite N1, N2.
  - intros r d -> -> -> R W. rewrite (UF W). cbn [rbind]. destruct R as [-> | ->]; reflexivity.
Qed.
End C55.
Print Assumptions C55_file_partial.
Print Assumptions C55_without_x.
Print Assumptions C55_x_and_y.
Print Assumptions C55_empty_group.
Print Assumptions C55_two_tables.
Print Assumptions C55_function_errors.

(** Concrete groups: the constant formulas eps = d and n = d *)
Definition constant (k : kind) (d : R) : res (R -> option C) := Ok (fun _ => Some (RtoC d)).
Definition constant_eps (d : R) : child R := Function (NxFunction true true false (Some "eps"%string) (Some d)).
Definition constant_n (d : R) : child R := Function (NxFunction true true false (Some "n"%string) (Some d)).
Definition flat_table (d : R) : child R := Tabulated (NxTable (Some [300; 900]%R) None None (Some [RtoC d; RtoC d])).

Lemma constant_eps_has d : has_permittivity R constant [constant_eps d] (fun _ => Some (RtoC d)).
Proof.
  exists KEps, [(false, fun _ => Some (RtoC d))]. split; [constructor; [now constructor|constructor]|]. split; [discriminate|]. split; [cbn; auto|].
  intros lbda. unfold permittivity. cbn. f_equal. ring.
Qed.

(** x and y without z: not a ValueError *)
Theorem C55_x_y_refuted : exists (e : entry R) (x : exn), group_z e = None /\
  snd (get_material R constant [] e) = Err x /\ x <> ValueError.
Proof.
  exists (Entry (Some [constant_eps 2]) (Some [constant_eps 3]) None), KeyError. split; [reflexivity|].
  destruct (C55_x_and_y R constant [] [constant_eps 2] [constant_eps 3] _ _ inv_nil (constant_eps_has 2) (constant_eps_has 3)) as (h' & E).
  rewrite E. split; [reflexivity|discriminate].
Qed.
Print Assumptions C55_x_y_refuted.

(** Two tables for x are not added; a table over energies cannot be read *)
Theorem C55_tables_refuted : exists (x : list (child R)) (k : kind) (vs : list (bool * (R -> option C))),
  describes R constant x k vs /\ vs <> [] /\ snd (get_material R constant [] (Entry (Some x) None None)) = Err NotImplementedError.
Proof.
  exists [flat_table 2; flat_table 3], KEps, [(true, interpolated (combine [300; 900]%R [RtoC 2; RtoC 2])); (true, interpolated (combine [300; 900]%R [RtoC 3; RtoC 3]))].
  assert (D : describes R constant [flat_table 2; flat_table 3] KEps [(true, interpolated (combine [300; 900]%R [RtoC 2; RtoC 2])); (true, interpolated (combine [300; 900]%R [RtoC 3; RtoC 3]))]).
  { constructor; [now constructor|]. constructor; [now constructor|constructor]. }
  split; [exact D|]. split; [discriminate|]. destruct (C55_two_tables R constant [] _ _ _ D I) as (h' & E). now rewrite E.
Qed.
Print Assumptions C55_tables_refuted.

Theorem C55_energy_table_refuted : exists (t : nx_table) (energies : list R) (eps : list C),
  tb_energy t = Some energies /\ dielectric_function t = Some eps /\ length energies = length eps /\
  snd (get_material R constant [] (Entry (Some [Tabulated t]) None None)) = Err TypeError.
Proof. exists (NxTable None (Some [1; 2; 3]%R) None (Some [RtoC 2; RtoC 2; RtoC 3])), [1; 2; 3]%R, [RtoC 2; RtoC 2; RtoC 3]. repeat split. Qed.
Print Assumptions C55_energy_table_refuted.

(** Formula plus table plus formula for x, an index formula for z *)
Example C55_example : exists fx fz, means R constant (Entry (Some [OtherClass; constant_eps 2; flat_table 3; constant_eps 1]) None (Some [constant_n 2])) IsUniaxial fx fx fz /\
  fx 500%R = Some (RtoC 6) /\ fz 500%R = Some (RtoC 4).
Proof.
  set (vs := [(false, fun _ : R => Some (RtoC 2)); (true, interpolated (combine [300; 900]%R [RtoC 3; RtoC 3])); (false, fun _ : R => Some (RtoC 1))]).
  exists (permittivity KEps vs), (permittivity KIdx [(false, fun _ => Some (RtoC 2))]). split; [|split].
  - constructor.
    + exists KEps, vs. split; [|split; [discriminate|split; [cbn; auto|reflexivity]]].
      constructor. constructor; [now constructor|]. constructor; [now constructor|]. constructor; [now constructor|constructor].
    + exists KIdx, [(false, fun _ => Some (RtoC 2))]. split; [|split; [discriminate|split; [cbn; auto|reflexivity]]].
      constructor; [now constructor|constructor].
  - unfold permittivity, vs. cbn [map snd]. unfold interpolated, table_value, interp. cbn [combine sorted fold_right insert fst].
    destruct (Rlt_dec 900 300) as [H|_]; [lra|]. cbn [fst last]. destruct (Rlt_dec 500 300) as [H|_]; [lra|].
    destruct (Rlt_dec 900 500) as [H|_]; [lra|]. cbn [segment segment_from obind on_segment]. unfold Units.rdiv.
    destruct (Req_EM_T (900 - 300) 0) as [H|_]; [lra|]. cbn [obind total]. f_equal. apply injective_projections; cbn; lra.
  - unfold permittivity. cbn. f_equal. apply injective_projections; cbn; ring.
Qed.
