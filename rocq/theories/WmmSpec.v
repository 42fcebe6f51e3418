(** Specification: Legendre functions and the scalar potential of a main-field model, as in the
    textbooks. *)
From Coq Require Import Reals List Arith.
From Coquelicot Require Import Coquelicot.
From Verif Require Import RSum Geo3 WmmModel.
Open Scope R_scope.

(** Legendre polynomials by Bonnet's recurrence (n+2) P(n+2) = (2n+3) x P(n+1) - (n+1) P(n) *)
Fixpoint legendre (n : nat) (x : R) : R :=
  match n with
  | 0%nat => 1
  | S n' => match n' with
            | 0%nat => x
            | S n'' => (INR (2 * n'' + 3) * (x * legendre n' x) - INR (n'' + 1) * legendre n'' x) / INR (n'' + 2)
            end
  end.
(** associated Legendre function of sin phi (no Condon-Shortley sign): cos^m phi times the m-th
    derivative of the Legendre polynomial *)
Definition assoc_legendre (n m : nat) (phi : R) : R := cos phi ^ m * Derive_n (legendre n) m (sin phi).
(** Schmidt semi-normalisation *)
Definition schmidt (n m : nat) : R :=
  match m with 0%nat => 1 | _ => sqrt (2 * INR (fact (n - m)) / INR (fact (n + m))) end.
Definition schmidt_legendre (n m : nat) (phi : R) : R := schmidt n m * assoc_legendre n m phi.

(** the potential: a sum_(n=1)^N (a/r)^(n+1) sum_(m=0)^n (g cos m lambda + h sin m lambda) P_n^m *)
Definition potential (g h : nat -> nat -> R) (N : nat) (a r phi lam : R) : R :=
  a * sum N (fun i => let n := S i in
    (a / r) ^ (n + 1) * sum (n + 1) (fun m =>
      (g n m * cos (INR m * lam) + h n m * sin (INR m * lam)) * schmidt_legendre n m phi)).

(** unit vectors north, east and up at a latitude and longitude, in Earth-fixed axes *)
Definition north (lat lon : R) : V3 := mkV (- sin lat * cos lon) (- sin lat * sin lon) (cos lat).
Definition east (lon : R) : V3 := mkV (- sin lon) (cos lon) 0.
Definition upward (lat lon : R) : V3 := mkV (cos lat * cos lon) (cos lat * sin lon) (sin lat).
(** the vector with the given north, east and down components at a latitude and longitude *)
Definition from_ned (lat lon : R) (v : V3) : V3 :=
  Vadd (Vscale (vx v) (north lat lon)) (Vadd (Vscale (vy v) (east lon)) (Vscale (- vz v) (upward lat lon))).
(** the Earth-fixed point at a geocentric radius, latitude and longitude *)
Definition spherical (r phi lam : R) : V3 := Vscale r (upward phi lam).
(** the Earth-fixed point at a geodetic latitude, longitude and height over the ellipsoid of
    equatorial radius a and flattening f *)
Definition geodetic (a f lat lon h : R) : V3 :=
  let e2 := f * (2 - f) in
  let n := a / sqrt (1 - e2 * (sin lat * sin lat)) in
  mkV ((n + h) * cos lat * cos lon) ((n + h) * cos lat * sin lon) ((n * (1 - e2) + h) * sin lat).

(** the coefficient tables of a model: every (n, m) has a record and the records and tables agree *)
Definition well_formed (m : model) : Prop :=
  (m_max m <= wmm_max_degree)%nat /\
  (forall r, In r (m_records m) ->
     (r_order r <= r_degree r <= wmm_max_degree)%nat /\
     tri_get (m_g m) (r_degree r) (r_order r) = r_g r /\ tri_get (m_h m) (r_degree r) (r_order r) = r_h r /\
     tri_get (m_gd m) (r_degree r) (r_order r) = r_gdot r /\ tri_get (m_hd m) (r_degree r) (r_order r) = r_hdot r) /\
  (forall n k, (1 <= n <= wmm_max_degree)%nat -> (k <= n)%nat ->
     exists r, In r (m_records m) /\ r_degree r = n /\ r_order r = k).
