(** Specification: geodesy and forces as a textbook states them. *)
From Coq Require Import Reals.
From Verif Require Import Geo3.
Local Open Scope R_scope.

(** the WGS-84 ellipsoid, by its semi-major axis and first eccentricity squared *)
Definition wgs_a : R := 6378137.
Definition wgs_e2 : R := 6694379990141 / 10 ^ 15.
Definition wgs_b2 : R := wgs_a * wgs_a * (1 - wgs_e2).

(** a point of the surface *)
Definition on_ellipsoid (s : V3) : Prop :=
  (vx s * vx s + vy s * vy s) / (wgs_a * wgs_a) + vz s * vz s / wgs_b2 = 1.
(** half the gradient of the quadratic form: the outward normal of the surface there *)
Definition outward (s : V3) : V3 := mkV (vx s / (wgs_a * wgs_a)) (vy s / (wgs_a * wgs_a)) (vz s / wgs_b2).
(** the direction called "up" at a geodetic latitude and longitude *)
Definition up (lat lon : R) : V3 := mkV (cos lat * cos lon) (cos lat * sin lon) (sin lat).
(** geodetic coordinates: stand on the surface where the normal is [up lat lon], climb [alt] *)
Definition geodetic (lat lon alt : R) (p : V3) : Prop :=
  exists s c, on_ellipsoid s /\ 0 < c /\ outward s = Vscale c (up lat lon) /\ p = Vadd s (Vscale alt (up lat lon)).

(** Somigliana's formula for normal gravity *)
Definition somigliana (g_e k e2 lat : R) : R :=
  g_e * (1 + k * (sin lat * sin lat)) / sqrt (1 - e2 * (sin lat * sin lat)).

(** the point [p] turned by the angle [t] about the polar axis *)
Definition turn (t : R) (p : V3) : V3 :=
  mkV (cos t * vx p - sin t * vy p) (sin t * vx p + cos t * vy p) (vz p).
