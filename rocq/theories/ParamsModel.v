(** Parameters: which entries of sigma, pi, rho, phi, beta and gamma are optimised over, their bounds, and
    conversion between matrices and theta.  pyblp/parameters.py. *)
From Coq Require Import Reals List Bool Arith.
From Verif Require Import FltModel.
Import ListNotations.

Inductive kind := Sigma | Pi | Rho | Phi | Beta | Gamma.
Definition kinds : list kind := [Sigma; Pi; Rho; Phi; Beta; Gamma].
Definition kind_eq_dec (a b : kind) : {a = b} + {a <> b}.
Proof. decide equality. Defined.

(** A parameter is a class and a location.  parameters.py 21-31.  AllGroupsRhoParameter and
    OneGroupRhoParameter, which are both RhoParameters, are not distinguished. *)
Definition parameter := (kind * (nat * nat))%type.
Definition parameter_eq_dec (p q : parameter) : {p = q} + {p <> q}.
Proof. repeat decide equality. Defined.

(** Two-dimensional arrays. *)
Record matrix := { nrows : nat; ncols : nat; entry : nat -> nat -> flt }.
Definition ndindex (r c : nat) : list (nat * nat) := list_prod (seq 0 r) (seq 0 c).
Definition tril_indices (n : nat) : list (nat * nat) := flat_map (fun i => map (pair i) (seq 0 (S i))) (seq 0 n).

(** parameters.py 316-340.  None: ValueError. *)
Definition initialize_matrix (values : option matrix) (shapes : list (nat * nat)) (allow_nans : bool) : option matrix :=
  let shape0 := hd (0, 0) shapes in
  let default := {| nrows := fst shape0; ncols := snd shape0; entry := fun _ _ => NaN |} in
  match values with
  | None => if allow_nans then Some default
            else if forallb (fun s => Nat.ltb 0 (fst s * snd s)) shapes then None
            else if existsb (fun ij => fnan (entry default (fst ij) (snd ij))) (ndindex (nrows default) (ncols default)) then None
            else Some default
  | Some m =>
      if negb (eqb (Nat.ltb 0 (nrows m * ncols m)) (forallb (fun s => Nat.ltb 0 (fst s * snd s)) shapes)) then None
      else if negb (existsb (fun s => (Nat.eqb (nrows m) (fst s) && Nat.eqb (ncols m) (snd s))%bool) shapes) then None
      else if negb allow_nans && existsb (fun ij => fnan (entry m (fst ij) (snd ij))) (ndindex (nrows m) (ncols m)) then None
      else Some m
  end.

(** parameters.py 343-380.  None: ValueError.  Bounds that are specified are assumed to have the shape of the
    matrix (otherwise there is a ValueError as well). *)
Definition bounds := ((nat -> nat -> flt) * (nat -> nat -> flt))%type.
Definition initialize_bounds (m : matrix) (bound_values : option bounds) (bounded : bool) : option bounds :=
  let specified :=
    match bound_values with
    | Some (l, u) =>
        if Nat.ltb 0 (nrows m * ncols m) then
          let l' := fun i j => if fnan (l i j) then NInf else l i j in
          let u' := fun i j => if fnan (u i j) then PInf else u i j in
          if existsb (fun ij => (fltb (entry m (fst ij) (snd ij)) (l' (fst ij) (snd ij))
                                 || fltb (u' (fst ij) (snd ij)) (entry m (fst ij) (snd ij)))%bool)
               (ndindex (nrows m) (ncols m))
          then None else Some (l', u')
        else Some (fun _ _ => NInf, fun _ _ => PInf)
    | None => Some (fun _ _ => NInf, fun _ _ => PInf)
    end in
  match specified with
  | None => None
  | Some (l, u) =>
      let drop := fun i j => (negb bounded && negb (feqb (l i j) (u i j)))%bool in
      let l1 := fun i j => if drop i j then NInf else l i j in
      let u1 := fun i j => if drop i j then PInf else u i j in
      let zero := fun i j => feqb (entry m i j) (Num 0) in
      Some (fun i j => if zero i j then Num 0 else l1 i j, fun i j => if zero i j then Num 0 else u1 i j)
  end.

(** What is stored.  Labels, formulations and the indices of alpha and endogenous gamma are not modelled. *)
Record parameters := {
  mat : kind -> matrix;
  lower : kind -> nat -> nat -> flt;
  upper : kind -> nat -> nat -> flt;
  eliminated_index : kind -> nat -> nat -> bool;
  fixed : list parameter;
  unfixed : list parameter;
  eliminated : list parameter
}.

(** Locations in the order in which they are stored.  parameters.py 284-289. *)
Definition locations (mat : kind -> matrix) (k : kind) : list (nat * nat) :=
  match k with
  | Sigma => tril_indices (nrows (mat Sigma))
  | _ => ndindex (nrows (mat k)) (ncols (mat k))
  end.

(** [Parameter.value is not None].  parameters.py 28-31. *)
Definition has_value (lower upper : kind -> nat -> nat -> flt) (p : parameter) : bool :=
  let '(k, (i, j)) := p in feqb (lower k i j) (upper k i j).

(** [store].  parameters.py 382-397.  Accumulates (fixed, unfixed, eliminated). *)
Definition stored := (list parameter * list parameter * list parameter)%type.
Definition store_one (lower upper : kind -> nat -> nat -> flt) (elim : kind -> nat -> nat -> bool)
    (s : stored) (p : parameter) : stored :=
  let '(f, u, e) := s in
  let '(k, (i, j)) := p in
  if elim k i j then (f, u, e ++ [p])
  else if has_value lower upper p then (f ++ [p], u, e)
  else (f, u ++ [p], e).
Definition store (lower upper : kind -> nat -> nat -> flt) (elim : kind -> nat -> nat -> bool)
    (mat : kind -> matrix) (s : stored) (k : kind) : stored :=
  fold_left (store_one lower upper elim) (map (pair k) (locations mat k)) s.

(** Python's min and max of a constant and a number. *)
Definition py_min (a b : flt) : flt := if fltb b a then b else a.
Definition py_max (a b : flt) : flt := if fltb a b then b else a.

(** Default bounds, which are only for parameters in theta.  parameters.py 294-302. *)
Definition member (p : parameter) (l : list parameter) : bool := if in_dec parameter_eq_dec p l then true else false.
Definition default_lower (bounded : bool) (given : kind -> bool) (mat : kind -> matrix) (unfixed : list parameter)
    (lower : kind -> nat -> nat -> flt) : kind -> nat -> nat -> flt :=
  fun k i j =>
    if (bounded && member (k, (i, j)) unfixed && negb (given k))%bool then
      match k with
      | Sigma => if Nat.eqb i j then py_min (Num 0) (entry (mat Sigma) i j) else lower k i j
      | Rho => py_min (Num 0) (entry (mat Rho) i j)
      | _ => lower k i j
      end
    else lower k i j.
Definition default_upper (bounded : bool) (given : kind -> bool) (mat : kind -> matrix) (unfixed : list parameter)
    (upper : kind -> nat -> nat -> flt) : kind -> nat -> nat -> flt :=
  fun k i j =>
    if (bounded && member (k, (i, j)) unfixed && negb (given k))%bool then
      match k with
      | Rho => py_max (Num (99 / 100)) (entry (mat Rho) i j)
      | _ => upper k i j
      end
    else upper k i j.

(** Only beta and gamma can be concentrated out. *)
Definition linear (k : kind) : bool := match k with Beta | Gamma => true | _ => false end.
Definition is_some {A} (o : option A) : bool := match o with Some _ => true | None => false end.
Definition from_some {A} (d : A) (o : option A) : A := match o with Some x => x | None => d end.

(** [Parameters.__init__].  parameters.py 171-308.  None: ValueError.  Checks that involve formulations or
    integration nodes (258-275) are not modelled. *)
Definition validated (values : kind -> option matrix) (shapes : kind -> list (nat * nat)) (nans : bool) (k : kind)
    : option matrix := initialize_matrix (values k) (shapes k) (linear k && nans).
(** The upper triangle of sigma is filled with zeros. *)
Definition matrices (values : kind -> option matrix) (shapes : kind -> list (nat * nat)) (nans : bool) (k : kind) : matrix :=
  let m := from_some {| nrows := 0; ncols := 0; entry := fun _ _ => NaN |} (validated values shapes nans k) in
  match k with
  | Sigma => {| nrows := nrows m; ncols := ncols m; entry := fun i j => if Nat.ltb i j then Num 0 else entry m i j |}
  | _ => m
  end.
Definition validated_bounds (m : kind -> matrix) (bound_values : kind -> option bounds) (bounded : bool) (k : kind)
    : option bounds := initialize_bounds (m k) (bound_values k) bounded.
Definition bounds_of (o : option bounds) : bounds := from_some (fun _ _ => NaN, fun _ _ => NaN) o.
Definition finish (m : kind -> matrix) (bound_values : kind -> option bounds) (bounded : bool) (b : kind -> bounds) : parameters :=
  let lower := fun k => fst (b k) in
  let upper := fun k => snd (b k) in
  let elim := fun k i j => (linear k && fnan (entry (m k) i j))%bool in
  let '(f, u, e) := fold_left (store lower upper elim m) kinds ([], [], []) in
  let given := fun k => is_some (bound_values k) in
  {| mat := m;
     lower := default_lower bounded given m u lower;
     upper := default_upper bounded given m u upper;
     eliminated_index := elim; fixed := f; unfixed := u; eliminated := e |}.
Definition initialize (values : kind -> option matrix) (shapes : kind -> list (nat * nat))
    (bound_values : kind -> option bounds) (bounded allow_linear_nans : bool) : option parameters :=
  let m := matrices values shapes allow_linear_nans in
  let b := validated_bounds m bound_values bounded in
  if forallb (fun k => is_some (validated values shapes allow_linear_nans k)) kinds then
    if forallb (fun k => is_some (b k)) kinds then
      Some (finish m bound_values bounded (fun k => bounds_of (b k)))
    else None
  else None.

(** [compress] and [compress_bounds].  parameters.py 623-649. *)
Definition is_kind (k : kind) (p : parameter) : bool := if kind_eq_dec (fst p) k then true else false.
Definition at_location (v : kind -> nat -> nat -> flt) (p : parameter) : flt := v (fst p) (fst (snd p)) (snd (snd p)).
Definition compress_with (ps : parameters) (v : kind -> nat -> nat -> flt) : list flt :=
  flat_map (fun k => map (at_location v) (filter (is_kind k) (unfixed ps))) kinds.
Definition compress (ps : parameters) : list flt := compress_with ps (fun k => entry (mat ps k)).
Definition compress_bounds (ps : parameters) : list (flt * flt) :=
  combine (compress_with ps (lower ps)) (compress_with ps (upper ps)).

(** [expand].  parameters.py 655-700. *)
Definition assign (v : kind -> nat -> nat -> flt) (p : parameter) (x : flt) : kind -> nat -> nat -> flt :=
  fun k i j => if parameter_eq_dec (k, (i, j)) p then x else v k i j.
Fixpoint fill (v : kind -> nat -> nat -> flt) (l : list (parameter * flt)) : kind -> nat -> nat -> flt :=
  match l with
  | [] => v
  | (p, x) :: l' => fill (assign v p x) l'
  end.
(** The value of a fixed parameter is its lower bound; default bounds never change those of fixed
    parameters, so it can be read afterwards. *)
Definition expand (ps : parameters) (theta : list flt) (nullify : bool) : kind -> nat -> nat -> flt :=
  let v := fill (fun _ _ _ => NaN) (combine (unfixed ps) theta) in
  if nullify then v
  else
    let v1 := fun k i j =>
      match k with
      | Sigma => if Nat.ltb i j then Num 0 else v k i j
      | _ => v k i j
      end in
    fill v1 (map (fun p => (p, at_location (lower ps) p)) (fixed ps)).

(** [extract_sigma_vector_covariances].  parameters.py 702-713.  vech_indices lists the lower triangle column
    by column, as vech does (algebra.py 238-240).  Positions in theta are found by expanding [np.arange(P)]. *)
Definition vech_indices (n : nat) : list (nat * nat) := flat_map (fun j => map (fun i => (i, j)) (seq j (n - j))) (seq 0 n).
Fixpoint position (l : list parameter) (p : parameter) (from : nat) (found : option nat) : option nat :=
  match l with
  | [] => found
  | q :: l' => position l' p (S from) (if parameter_eq_dec p q then Some from else found)
  end.
Definition extract_sigma_vector_covariances (ps : parameters) (theta_covariances : nat -> nat -> R) : nat -> nat -> R :=
  let P := List.length (unfixed ps) in
  let padded := fun a b => if (Nat.ltb a P && Nat.ltb b P)%bool then theta_covariances a b else 0%R in
  let indices := map (fun ij => from_some P (position (unfixed ps) (Sigma, ij) 0 None)) (vech_indices (nrows (mat ps Sigma))) in
  fun a b => padded (nth a indices P) (nth b indices P).

(** Bootstrapped parameter matrices.  pyblp/results/problem_results.py 1190-1231.  [drawn_theta] and
    [drawn_eliminated] are one draw of the stacked parameters, the latter already placed in beta and gamma. *)
Definition clip (x l u : flt) : flt := fmin (fmax x l) u.
Definition bootstrap_draw (ps : parameters) (drawn_theta : list flt) (drawn_eliminated : kind -> nat -> nat -> flt)
    : kind -> nat -> nat -> flt :=
  let v := expand ps drawn_theta false in
  fun k i j =>
    clip (if eliminated_index ps k i j then drawn_eliminated k i j else v k i j) (lower ps k i j) (upper ps k i j).

(** Tables of estimates: whether the standard error of an element is printed.  parameters.py 500-562.
    For vectors, [format_vector] leaves elements in fixed_indices blank; [format_gamma] passes
    BetaParameter as the class of parameters (526-528). *)
Definition fixed_indices (ps : parameters) (k : kind) : list nat :=
  map (fun p => fst (snd p)) (filter (is_kind k) (fixed ps)).
Definition vector_se_printed (ps : parameters) (parameter_type : kind) (i : nat) : bool :=
  negb (existsb (Nat.eqb i) (fixed_indices ps parameter_type)).
Definition rho_se_printed ps := vector_se_printed ps Rho.
Definition beta_se_printed ps := vector_se_printed ps Beta.
Definition gamma_se_printed ps := vector_se_printed ps Beta.
(** For phi, fixed elements of the row are left blank (506-519); for sigma and pi only unfixed elements of
    the row are printed (594-613). *)
Definition phi_se_printed (ps : parameters) (i j : nat) : bool :=
  negb (existsb (Nat.eqb j) (map (fun p => snd (snd p))
    (filter (is_kind Phi) (filter (fun p => Nat.eqb (fst (snd p)) i) (fixed ps))))).
Definition nonlinear_se_printed (ps : parameters) (k : kind) (i j : nat) : bool :=
  existsb (Nat.eqb j) (map (fun p => snd (snd p))
    (filter (is_kind k) (filter (fun p => Nat.eqb (fst (snd p)) i) (unfixed ps)))).
