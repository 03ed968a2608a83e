(** The data sets of /repo/data/datasets.go and DownloadFromURL of /repo/io/http.go, with ParseData of
    Parse.v. A path given to DownloadFromURL is relative and clean, as all those of datasets.go are:
    GetPath puts the working directory in front of it. *)
From Coq Require Import Ascii String.
From Verif Require Import Base Res GoMap Text Parse Img.
Local Open Scope string_scope.
Local Open Scope Z_scope.

(** What os.Stat tells of a path, with the contents of a file. *)
Inductive entry := Absent | AFile (text : string) | ADir | Unknown.
Definition disk := string -> entry.
Definition dput (d : disk) (f : string) (e : entry) : disk := fun g => if String.eqb f g then e else d g.

(** What http.Get gives: an error, or a status and a body of which [text] arrives before the end or
    an error. *)
Inductive reply := NoReply | Reply (status : Z) (text : string) (whole : bool).

(** A call returns nil or an error, or panics. *)
Inductive outcome := RetNil | RetErr | Panicked.

(** path[i:] for the last dot after the last slash (filepath.Ext). *)
Fixpoint lastPart (s : string) : string :=
  match s with
  | EmptyString => ""
  | String c t => if Ascii.eqb c "/" then lastPart t else if existsb (Ascii.eqb "/") (list_ascii_of_string t) then lastPart t else s
  end.
Fixpoint fromDot (s : string) : string :=
  match s with
  | EmptyString => ""
  | String c t => match fromDot t with "" => if Ascii.eqb c "." then s else "" | r => r end
  end.
Definition ext (p : string) : string := fromDot (lastPart p).

Section Net.
(** The working directory, and whether os.Create succeeds for a path. *)
Variable cwd : string.
Variable creatable : string -> bool.
(** What http.Get gives for the k-th request, which is for the URL. *)
Variable net : nat -> string -> reply.

(** io/input.go:24-33. *)
Definition getPath (p : string) : string := cwd ++ "/" ++ p.

(** io/http.go:20-28: strings.Split has at least one part. *)
Definition target (u p : string) : string :=
  let p := getPath p in
  if String.eqb (ext p) "" then p ++ "/" ++ List.last (splitChar "/" u) "" else p.

(** The disk and the number of requests made. *)
Definition world := (disk * nat)%type.

(** io/http.go:18-59. The deferred d.Body.Close() evaluates d.Body before the error is looked at: d is
    nil then. The status of the reply is not looked at. *)
Definition downloadFromURL (s : world) (u p : string) (override : bool) : world * outcome :=
  let (d, k) := s in
  let f := target u p in
  let go :=
    if creatable f then
      let d := dput d f (AFile "") in
      match net k u with
      | NoReply => ((d, S k), Panicked)
      | Reply _ text whole => ((dput d f (AFile text), S k), if whole then RetNil else RetErr)
      end
    else (s, RetErr) in
  match d f with
  | AFile _ | ADir => if override then go else (s, RetNil)
  | Unknown => (s, RetErr)
  | Absent => go
  end.

(** data/datasets.go:11-33, 35-41. *)
Definition DatasetPath : string := ".cache/data/".
Definition upstream : string := "https://raw.githubusercontent.com/RenatoGeh/datasets/master/".
Definition upstreamURL (d : string) : string := upstream ++ d ++ "/compiled/all.data".
Definition fullPath (d : string) : string := DatasetPath ++ d ++ ".data".

(** io/input.go:37-46: opening anything but a file panics. *)
Definition parseFile (d : disk) (p : string) : res (gmap * list gmap) :=
  match d (getPath p) with AFile text => parseData (fileLines text) | _ => Panic end.

(** data/datasets.go:60-67 and the nine like it; the names are those of lines 16-25. None is (nil, nil).
    Whether the folder can be made is in [creatable]. *)
Definition dataset (s : world) (name : string) : world * res (option (gmap * list gmap)) :=
  match downloadFromURL s (upstreamURL name) (fullPath name) false with
  | (s, Panicked) => (s, Panic)
  | (s, RetErr) => (s, Ok None)
  | (s, RetNil) => (s, r <- parseFile (fst s) (fullPath name); Ok (Some r))
  end.

(** data/datasets.go:182-186. *)
Definition mnistFile (kind : string) (n b : Z) : string := kind ++ "_" ++ itoa b ++ "_" ++ itoa n ++ ".data".
Definition mnistURL (kind : string) (n b : Z) : string := upstream ++ "mnist/compiled/" ++ mnistFile kind n b.
Definition mnistPath (kind : string) (n b : Z) : string := DatasetPath ++ "mnist_" ++ mnistFile kind n b.
(** data/datasets.go:178-195: the error of the second download is not looked at. *)
Definition pullMNIST (s : world) (n b : Z) : world * res (option (gmap * list gmap * list gmap)) :=
  match downloadFromURL s (mnistURL "test" n b) (mnistPath "test" n b) false with
  | (s, Panicked) => (s, Panic)
  | (s, RetErr) => (s, Ok None)
  | (s, RetNil) =>
      match downloadFromURL s (mnistURL "train" n b) (mnistPath "train" n b) false with
      | (s, Panicked) => (s, Panic)
      | (s, _) =>
          (s, t <- parseFile (fst s) (mnistPath "test" n b); r <- parseFile (fst s) (mnistPath "train" n b);
              Ok (Some (fst t, snd t, snd r)))
      end
  end.

(** data/datasets.go:16-25, and 200-223: the calls a client can make. *)
Definition names : list string :=
  ["caltech"; "caltech_4bit"; "caltech_3bit"; "digits"; "digits_x"; "olivetti"; "olivetti_3bit"; "olivetti_padded_u";
   "olivetti_big"; "olivetti_small"].
Inductive call := CSet (name : string) | CMnist (n b : Z).
Definition calls : list call := (map CSet names ++ [CMnist 1000 256; CMnist 2000 256; CMnist 1000 8; CMnist 2000 8])%list.
Inductive answer := ASet (r : res (option (gmap * list gmap))) | AMnist (r : res (option (gmap * list gmap * list gmap))).
Definition perform (s : world) (c : call) : world * answer :=
  match c with
  | CSet name => let (s, r) := dataset s name in (s, ASet r)
  | CMnist n b => let (s, r) := pullMNIST s n b in (s, AMnist r)
  end.
(** One call after another; a panic is caught by the client, which may call again. *)
Fixpoint session (s : world) (cs : list call) : world * list answer :=
  match cs with
  | [] => (s, [])
  | c :: t => let (s, a) := perform s c in let (s, l) := session s t in (s, a :: l)
  end.
End Net.
