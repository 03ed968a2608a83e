(** Vocabulary for rectangles of an image, independent of the code that builds regions. *)
From Verif Require Import Base Res Arith GraphSpec Spn.
Local Open Scope Z_scope.

(** The pixels with left <= x < right and top <= y < bottom. *)
Record rect := Rect { left : Z; top : Z; right : Z; bottom : Z }.

(** A non-empty rectangle within a [w] by [h] image. *)
Definition inside (w h : Z) (a : rect) : Prop :=
  0 <= left a < right a /\ right a <= w /\ 0 <= top a < bottom a /\ bottom a <= h.

(** Pixel number [p] (rows of [w] pixels) lies in the rectangle. *)
Definition pixel (w : Z) (a : rect) (p : Z) : Prop :=
  exists x y, left a <= x < right a /\ top a <= y < bottom a /\ p = x + y * w.

(** One vertical or horizontal cut of [a] into [b] and [c]. *)
Definition cut (a b c : rect) : Prop :=
  (exists x, left a < x < right a /\
     ((b = Rect (left a) (top a) x (bottom a) /\ c = Rect x (top a) (right a) (bottom a)) \/
      (c = Rect (left a) (top a) x (bottom a) /\ b = Rect x (top a) (right a) (bottom a)))) \/
  (exists y, top a < y < bottom a /\
     ((b = Rect (left a) (top a) (right a) y /\ c = Rect (left a) y (right a) (bottom a)) \/
      (c = Rect (left a) (top a) (right a) y /\ b = Rect (left a) y (right a) (bottom a)))).

(** The regions at resolution [r]: rectangles made of whole r by r cells, and rectangles within
    one cell. *)
Definition region_at (r : Z) (a : rect) : Prop :=
  ((r | left a) /\ (r | top a) /\ (r | right a) /\ (r | bottom a)) \/
  (exists i j, i * r <= left a /\ right a <= (i + 1) * r /\ j * r <= top a /\ bottom a <= (j + 1) * r).

(** Images whose region codes fit 64 bits. *)
Definition codes_fit (w h : Z) : Prop :=
  (w + 1) * (w + 1) * ((h + 1) * (h + 1)) <= 2 ^ 64.

Section W.
Context {A : arith}.

(** Sum nodes below [z] have children, one weight per child, each an integer from 1 to 10. *)
Definition small_weights (net : network A) (z : nat) : Prop :=
  forall u ws, reach (children net) z u -> nk (net u) = KSum ws ->
    nch (net u) <> [] /\ length ws = length (nch (net u)) /\
    forall x, In x ws -> exists n, 1 <= n <= 10 /\ x = fz n.

(** No cycle can be reached from [z]. *)
Definition acyclic_from (ch : graph) (z : nat) : Prop :=
  forall u c, reach ch z u -> In c (ch u) -> ~ reach ch c u.
End W.
