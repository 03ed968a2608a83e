(** The text codecs of the nodes: GobEncode and GobDecode of /repo/spn/sum.go, product.go,
    multinom.go, indicator.go and gaussian.go, with the parts of Go's fmt they call (Fprintf "%d"
    and "%f", Fprintln, Fscanf, Fscanln) written out for the characters these encoders produce.

    Weights are values of an arbitrary arithmetic. [exact] is the number a float64 stands for
    ("%f" prints it from its exact value, strconv/ftoa.go), [near] is strconv.ParseFloat, which
    rounds a decimal to a float64. A negative zero has no value of its own here. *)
From Coq Require Import QArith DecimalZ.
From Verif Require Import Base Res Arith Spn Leaves.
Local Open Scope Z_scope.

(** What a float64 stands for. *)
Inductive num := Val (q : Q) | Infty (neg : bool) | NotANum.

(** The characters written by the encoders. "Inf" and "NaN" are one symbol each. [Shortest x] is
    the token Fprintln writes for a float64: strconv's shortest text that reads back as x; it is
    one symbol and reading it back is trusted. *)
Inductive chr {N : Type} :=
| Dig (d : Z) | Minus | Plus | Dot | Space | NL | InfTok | NaNTok | Shortest (x : N).
Arguments chr : clear implicits.

Section Codec.
Context {A : arith}.
Variable exact : F A -> num.
Variable near : num -> F A.
Local Notation F := (F A).
Local Notation text := (list (chr F)).

(** Writing. fmt "%d": an optional minus sign and the decimal digits. *)
Fixpoint ofUint (u : Decimal.uint) : text :=
  match u with
  | Decimal.Nil => []
  | Decimal.D0 u => Dig 0 :: ofUint u | Decimal.D1 u => Dig 1 :: ofUint u
  | Decimal.D2 u => Dig 2 :: ofUint u | Decimal.D3 u => Dig 3 :: ofUint u
  | Decimal.D4 u => Dig 4 :: ofUint u | Decimal.D5 u => Dig 5 :: ofUint u
  | Decimal.D6 u => Dig 6 :: ofUint u | Decimal.D7 u => Dig 7 :: ofUint u
  | Decimal.D8 u => Dig 8 :: ofUint u | Decimal.D9 u => Dig 9 :: ofUint u
  end.
Definition showInt (z : Z) : text :=
  match Z.to_int z with Decimal.Pos u => ofUint u | Decimal.Neg u => Minus :: ofUint u end.

(** strconv: n/d rounded to an integer, exact halves to the even one. *)
Definition roundHalfEven (n : Z) (d : positive) : Z :=
  let k := n / Zpos d in
  let r := n mod Zpos d in
  if 2 * r <? Zpos d then k
  else if Zpos d <? 2 * r then k + 1
  else if Z.even k then k else k + 1.

(** fmt "%f": six decimals; the sign is written even when the digits are all zero. *)
Definition showF (x : F) : text :=
  match exact x with
  | Val q =>
      let k := roundHalfEven (Z.abs (Qnum q) * 1000000) (Qden q) in
      (if Qnum q <? 0 then [Minus] else []) ++ showInt (k / 1000000) ++ [Dot]
      ++ [Dig (k / 100000 mod 10); Dig (k / 10000 mod 10); Dig (k / 1000 mod 10);
          Dig (k / 100 mod 10); Dig (k / 10 mod 10); Dig (k mod 10)]
  | Infty true => [Minus; InfTok]
  | Infty false => [Plus; InfTok]
  | NotANum => [NaNTok]
  end.

(** Reading. fmt/scan.go SkipSpace for Fscanf: blanks are skipped, a newline is an error. *)
Fixpoint skipSpace (t : text) : option text :=
  match t with
  | Space :: r => skipSpace r
  | NL :: _ => None
  | _ => Some t
  end.

Fixpoint takeDigits (t : text) : list Z * text :=
  match t with
  | Dig d :: r => let (ds, r') := takeDigits r in (d :: ds, r')
  | _ => ([], t)
  end.

Definition ofDigits (ds : list Z) : Z := fold_left (fun a d => 10 * a + d) ds 0.

Definition takeSign (t : text) : bool * text :=
  match t with Minus :: r => (true, r) | Plus :: r => (false, r) | _ => (false, t) end.

(** A Go int has 64 bits. *)
Definition isInt (z : Z) : bool := (- 2 ^ 63 <=? z) && (z <? 2 ^ 63).

(** fmt/scan.go "%d" into an int. None is an error. *)
Definition scanInt (t : text) : option (Z * text) :=
  match skipSpace t with
  | None => None
  | Some t1 =>
      let (neg, t2) := takeSign t1 in
      let (ds, t3) := takeDigits t2 in
      match ds with
      | [] => None
      | _ => let z := if neg then - ofDigits ds else ofDigits ds in
             if isInt z then Some (z, t3) else None
      end
  end.

(** fmt/scan.go "%f" (floatToken, convertFloat): only the token shapes made of the characters
    above. A decimal out of the range of float64 does not arise from a printed float64. *)
Definition scanFloat (t : text) : option (F * text) :=
  match skipSpace t with
  | None => None
  | Some (NaNTok :: r) => Some (near NotANum, r)
  | Some t1 =>
      let (neg, t2) := takeSign t1 in
      match t2 with
      | InfTok :: r => Some (near (Infty neg), r)
      | _ =>
          let (ds, t3) := takeDigits t2 in
          let '(fs, t4) := match t3 with Dot :: r => takeDigits r | _ => ([], t3) end in
          match ds ++ fs with
          | [] => None
          | _ => let m := ofDigits (ds ++ fs) in
                 Some (near (Val (Qmake (if neg then - m else m)
                                        (Z.to_pos (10 ^ Z.of_nat (length fs))))), t4)
          end
      end
  end.

(** The token of Fprintln read by Fscanln: one float. *)
Definition scanShortest (t : text) : option (F * text) :=
  match skipSpace t with Some (Shortest x :: r) => Some (x, r) | _ => None end.

(** What a node stores: the concrete type behind the SPN interface and its fields. The scopes
    cached by sums and products are left out; Sc() of indicators and Gaussians recomputes a missing
    scope from the variable (indicator.go:58-63, gaussian.go:175-180), so only the variable is
    kept. *)
Inductive content :=
| CSum (w : list F) | CProd | CMulti (m : multinomial A) | CInd (varid v : Z)
| CGauss (varid : Z) (mu sigma : F).

(** The name gob sends for the concrete type behind the interface (serial.go:9-16). *)
Inductive tag := TSum | TProd | TMulti | TInd | TGauss.

(** The loops of spn/sum.go:141-143 and multinom.go:223-225. *)
Definition showFloats (ws : list F) : text := flat_map (fun w => Space :: showF w) ws.

(** GobEncode: spn/sum.go:138-145, product.go:101-103, multinom.go:220-227, indicator.go:65-69,
    gaussian.go:183-187. *)
Definition gobEncode (c : content) : tag * text :=
  match c with
  | CSum w => (TSum, showInt (Z.of_nat (length w)) ++ showFloats w)
  | CProd => (TProd, [])
  | CMulti m => (TMulti, showInt (m_varid m) ++ [Space]
                         ++ showInt (Z.of_nat (length (m_pr m))) ++ showFloats (m_pr m))
  | CInd x v => (TInd, showInt x ++ [Space] ++ showInt v ++ [NL])
  | CGauss x mu sigma => (TGauss, showInt x ++ [Space; Shortest mu; Space; Shortest sigma; NL])
  end.

(** The loops of spn/sum.go:156-161 (format " %f") and multinom.go:239-244 (format "%f"): blanks
    before a number are skipped in both. *)
Fixpoint scanFloats (n : nat) (t : text) : option (list F) :=
  match n with
  | O => Some []
  | S k =>
      match scanFloat t with
      | None => None
      | Some (x, r) => option_map (cons x) (scanFloats k r)
      end
  end.

(** make([]float64, n) followed by the loop; a negative length panics. Ok None is a non-nil
    error. *)
Definition readSlice (n : Z) (t : text) : res (option (list F)) :=
  if n <? 0 then Panic else Ok (scanFloats (Z.to_nat n) t).

(** GobDecode into a zero value of the type: spn/sum.go:148-163, product.go:105-107,
    multinom.go:230-247, indicator.go:71-75, gaussian.go:190-195. Ok None is a non-nil error. *)
Definition gobDecode (g : tag) (t : text) : res (option content) :=
  match g with
  | TSum =>
      match scanInt t with
      | None => Ok None
      | Some (n, r) => ws <- readSlice n r; Ok (option_map CSum ws)
      end
  | TProd => Ok (Some CProd)
  | TMulti =>
      match scanInt t with
      | None => Ok None
      | Some (x, r1) =>
          match scanInt r1 with
          | None => Ok None
          | Some (n, r2) =>
              pr <- readSlice n r2;
              Ok (option_map (fun pr => let (mi, mv) := computeMode pr in
                                        CMulti (mkMulti [x] x pr mi mv)) pr)
          end
      end
  | TInd =>
      match scanInt t with
      | None => Ok None
      | Some (x, r1) =>
          match scanInt r1 with None => Ok None | Some (v, _) => Ok (Some (CInd x v)) end
      end
  | TGauss =>
      match scanInt t with
      | None => Ok None
      | Some (x, r1) =>
          match scanShortest r1 with
          | None => Ok None
          | Some (mu, r2) =>
              match scanShortest r2 with
              | Some (sigma, [NL]) | Some (sigma, []) => Ok (Some (CGauss x mu sigma))
              | _ => Ok None
              end
          end
      end
  end.
End Codec.
Arguments content A : clear implicits.
