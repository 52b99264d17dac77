(** What it means for two simulations to describe the same structure seen from
    elsewhere: moved, mirrored, turned, scaled, or with the harmonics listed in
    another order.  Patterns are compared point by point. *)
From Coq Require Import Reals ZArith.
From mathcomp Require Import all_ssreflect all_algebra.
From mathcomp Require Import complex.
From Verif Require Import RStruct Cplx Base Fourier_Model Sim_Model Setup_Model.

Set Implicit Arguments.
Unset Strict Implicit.
Unset Printing Implicit Defensive.

Import Order.TTheory GRing.Theory Num.Theory.
Local Open Scope ring_scope.
Local Open Scope complex_scope.

(** ** Points of a periodic grid *)
Definition cong (N : nat) (a b : Z) : Prop := exists k : Z, (a = b + Z.of_nat N * k)%Zc.

(** the sample of [u1] at (x, y) is the sample of [u2] at (x + a, y + b) *)
Definition rolled (a b : Z) (Nx Ny : nat) (u2 u1 : 'M[C]_(Nx, Ny)) : Prop :=
  forall (x x' : 'I_Nx) (y y' : 'I_Ny),
  cong Nx (Z.of_nat x') (Z.of_nat x + a)%Zc -> cong Ny (Z.of_nat y') (Z.of_nat y + b)%Zc -> u2 x' y' = u1 x y.
(** at (c - x, y) *)
Definition mirrored_x (c : Z) (Nx Ny : nat) (u2 u1 : 'M[C]_(Nx, Ny)) : Prop :=
  forall (x x' : 'I_Nx) (y : 'I_Ny), cong Nx (Z.of_nat x') (c - Z.of_nat x)%Zc -> u2 x' y = u1 x y.
(** at (x, c - y) *)
Definition mirrored_y (c : Z) (Nx Ny : nat) (u2 u1 : 'M[C]_(Nx, Ny)) : Prop :=
  forall (x : 'I_Nx) (y y' : 'I_Ny), cong Ny (Z.of_nat y') (c - Z.of_nat y)%Zc -> u2 x y' = u1 x y.
(** at (c - x, c' - y) *)
Definition inverted (c c' : Z) (Nx Ny : nat) (u2 u1 : 'M[C]_(Nx, Ny)) : Prop :=
  forall (x x' : 'I_Nx) (y y' : 'I_Ny),
  cong Nx (Z.of_nat x') (c - Z.of_nat x)%Zc -> cong Ny (Z.of_nat y') (c' - Z.of_nat y)%Zc -> u2 x' y' = u1 x y.
(** at (y, x) *)
Definition exchanged (Nx Ny : nat) (u2 : 'M[C]_(Ny, Nx)) (u1 : 'M[C]_(Nx, Ny)) : Prop :=
  forall x y, u2 y x = u1 x y.

(** ** Layers and formulations *)
Section Layers.
Variables Nx1 Ny1 Nx2 Ny2 : nat.
Notation grid1 := 'M[C]_(Nx1, Ny1).
Notation grid2 := 'M[C]_(Nx2, Ny2).
Notation tensor1 := ('I_3 -> 'I_3 -> grid1).
Notation tensor2 := ('I_3 -> 'I_3 -> grid2).

(** Same kind of layer; thickness [f] of the first one; [P] relates scalar
    patterns and [T] tensor patterns. *)
Definition layer_by (f : R -> R) (P : grid2 -> grid1 -> Prop) (T : tensor2 -> tensor1 -> Prop)
  (l2 : layer_in Nx2 Ny2) (l1 : layer_in Nx1 Ny1) : Prop :=
  li_thick l2 = omap f (li_thick l1) /\
  match li_eps l2, li_eps l1 with
  | EpsUniform e2, EpsUniform e1 => e2 = e1
  | EpsGrid u2, EpsGrid u1 => P u2 u1
  | EpsTensorGrid u2, EpsTensorGrid u1 => T u2 u1
  | _, _ => False
  end.

(** [V s0 s1 t0 t1]: relation between the fields of two 'tangent'-like
    formulations for patterns related by [P]; [D]: is formulation='tangent' with a 1-D grating allowed? *)
Definition form_by (D : Prop) (P : grid2 -> grid1 -> Prop) (V : grid2 -> grid2 -> grid1 -> grid1 -> Prop)
  (form2 : formulation_t Nx2 Ny2) (form1 : formulation_t Nx1 Ny1) : Prop :=
  match form2, form1 with
  | Original, Original => True
  | Tangent1D, Tangent1D => D
  | TangentLike tan2, TangentLike tan1 => forall u2 u1 t2 t1, P u2 u1 ->
      tan2 u2 = Ok t2 -> tan1 u1 = Ok t1 -> V t2.1 t2.2 t1.1 t1.2
  | _, _ => False
  end.

(** The components of a tensor pattern in the x, y block and the zz component,
    transformed as [sxx], [sxy], [syx], [syy] times the related pattern. *)
Definition tensor_signs (P : grid2 -> grid1 -> Prop) (s : R) (u2 : tensor2) (u1 : tensor1) : Prop :=
  [/\ P (u2 ord_max ord_max) (u1 ord_max ord_max),
      P (u2 (xy ord0) (xy ord0)) (u1 (xy ord0) (xy ord0)),
      P (u2 (xy ord0) (xy ord_max)) (rc s *: u1 (xy ord0) (xy ord_max)),
      P (u2 (xy ord_max) (xy ord0)) (rc s *: u1 (xy ord_max) (xy ord0)) &
      P (u2 (xy ord_max) (xy ord_max)) (u1 (xy ord_max) (xy ord_max))].
(** tensors are only compared with formulation='original' *)
Definition if_original (form : formulation_t Nx1 Ny1) (T : tensor2 -> tensor1 -> Prop) (u2 : tensor2) (u1 : tensor1) : Prop :=
  form = Original Nx1 Ny1 /\ T u2 u1.

(** all layers, in order *)
Definition stack_by f P T (ls2 : seq (layer_in Nx2 Ny2)) (ls1 : seq (layer_in Nx1 Ny1)) : Prop :=
  List.Forall2 (layer_by f P T) ls2 ls1.
End Layers.

(** a tensor pattern turned by the angle [al] *)
Definition tensor_turned (al : R) (Nx Ny : nat) (u2 u1 : 'I_3 -> 'I_3 -> 'M[C]_(Nx, Ny)) : Prop :=
  let c := rc (cos al) in let s := rc (sin al) in
  let x := xy ord0 in let y := xy ord_max in
  u2 ord_max ord_max = u1 ord_max ord_max /\
  forall i j,
  [/\ u2 x x i j = c * c * u1 x x i j - c * s * (u1 x y i j + u1 y x i j) + s * s * u1 y y i j,
      u2 x y i j = c * s * (u1 x x i j - u1 y y i j) + c * c * u1 x y i j - s * s * u1 y x i j,
      u2 y x i j = c * s * (u1 x x i j - u1 y y i j) + c * c * u1 y x i j - s * s * u1 x y i j &
      u2 y y i j = s * s * u1 x x i j + c * s * (u1 x y i j + u1 y x i j) + c * c * u1 y y i j].

(** a tensor pattern seen with the axes exchanged *)
Definition tensor_exchanged (Nx Ny : nat) (u2 : 'I_3 -> 'I_3 -> 'M[C]_(Ny, Nx)) (u1 : 'I_3 -> 'I_3 -> 'M[C]_(Nx, Ny)) : Prop :=
  let x := xy ord0 in let y := xy ord_max in
  [/\ exchanged (u2 ord_max ord_max) (u1 ord_max ord_max), exchanged (u2 x x) (u1 y y),
      exchanged (u2 x y) (u1 y x), exchanged (u2 y x) (u1 x y) & exchanged (u2 y y) (u1 x x)].

(** ** Field vectors: component by component *)
Definition comp (nh : nat) (v : 'cV[C]_nh) (i : 'I_nh) : C := v i ord0.

(** [field_signs p a b c a' b' c']: (hx,hy,hz) of the first field at j times
    p (a,b,c), (ex,ey,ez) times p (a',b',c'), are those of the second at i. *)
Definition field_signs (nh : nat) (F2 F1 : fields nh) (i j : 'I_nh) (p : C) (a b c a' b' c' : R) : Prop :=
  [/\ comp (f_hx F2) i = p * rc a * comp (f_hx F1) j,
      comp (f_hy F2) i = p * rc b * comp (f_hy F1) j &
      comp (f_hz F2) i = p * rc c * comp (f_hz F1) j] /\
  [/\ comp (f_ex F2) i = p * rc a' * comp (f_ex F1) j,
      comp (f_ey F2) i = p * rc b' * comp (f_ey F1) j &
      comp (f_ez F2) i = p * rc c' * comp (f_ez F1) j].

(** the field vectors of order i turned by the angle [al] *)
Definition field_turned (al : R) (nh : nat) (F2 F1 : fields nh) (i : 'I_nh) : Prop :=
  let c := rc (cos al) in let s := rc (sin al) in
  [/\ comp (f_hx F2) i = c * comp (f_hx F1) i - s * comp (f_hy F1) i,
      comp (f_hy F2) i = s * comp (f_hx F1) i + c * comp (f_hy F1) i &
      comp (f_hz F2) i = comp (f_hz F1) i] /\
  [/\ comp (f_ex F2) i = c * comp (f_ex F1) i - s * comp (f_ey F1) i,
      comp (f_ey F2) i = s * comp (f_ex F1) i + c * comp (f_ey F1) i &
      comp (f_ez F2) i = comp (f_ez F1) i].

(** x and y exchanged: (ex,ey,ez) becomes (ey,ex,ez), and (hx,hy,hz), an axial
    vector, becomes -(hy,hx,hz) *)
Definition field_exchanged (nh : nat) (F2 F1 : fields nh) (i j : 'I_nh) : Prop :=
  [/\ comp (f_hx F2) i = - comp (f_hy F1) j, comp (f_hy F2) i = - comp (f_hx F1) j &
      comp (f_hz F2) i = - comp (f_hz F1) j] /\
  [/\ comp (f_ex F2) i = comp (f_ey F1) j, comp (f_ey F2) i = comp (f_ex F1) j &
      comp (f_ez F2) i = comp (f_ez F1) j].

(** exp(-2 i pi (m a / Nx + n b / Ny)): what a displacement does to order (m, n) *)
Definition shift_phase (Nx Ny : nat) (o : order) (a b : Z) : C :=
  cexp ('i * (- (2 * PI * (IZR o.1 * IZR a / INR Nx + IZR o.2 * IZR b / INR Ny)))%Re%:C).

(** ** Plane waves *)
Local Open Scope R_scope.
(** azimuth phi replaced by [f phi] and polarisation psi by [g psi] *)
Definition wave_turned (f g : R -> R) (pw : planewave) : planewave :=
  PlaneWave (pw_lambda pw) (pw_theta pw) (f (pw_phi pw)) (g (pw_psi pw)).
Definition wave_scaled (s : R) (pw : planewave) : planewave :=
  PlaneWave (s * pw_lambda pw) (pw_theta pw) (pw_phi pw) (pw_psi pw).

(** the direction and the electric field of the wave in the (x, y) plane *)
Definition dir_x (pw : planewave) : R := sin (pw_theta pw) * cos (pw_phi pw).
Definition dir_y (pw : planewave) : R := sin (pw_theta pw) * sin (pw_phi pw).
Definition pol_x (pw : planewave) : R :=
  cos (pw_psi pw) * cos (pw_theta pw) * cos (pw_phi pw) - sin (pw_psi pw) * sin (pw_phi pw).
Definition pol_y (pw : planewave) : R :=
  cos (pw_psi pw) * cos (pw_theta pw) * sin (pw_phi pw) + sin (pw_psi pw) * cos (pw_phi pw).
