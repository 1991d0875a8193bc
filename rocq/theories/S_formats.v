(** Specification of file formats, file names and letter case. *)
From Coq Require Import Ascii String List Arith NArith ZArith Bool.
From Verif Require Import M_base M_mesh M_text M_mmio M_files M_formats.
Import ListNotations.

(** The keywords of each format, from the table in the help of the command line (cli.py:80-115), where .wrl and .pnl files are missing. *)
Definition keywords (f : fmt) : list text := map s
  match f with
  | MAR => ["nemoh"; "mar"] | NEM => ["nemoh_mesh"; "nem"] | GDF => ["wamit"; "gdf"] | INP => ["diodore-inp"; "inp"]
  | DAT => ["diodore-dat"] | HST => ["hydrostar"; "hst"] | NAT => ["natural"; "nat"] | MSH => ["gmsh"; "msh"]
  | RAD => ["rad"; "radioss"] | STL => ["stl"] | VTU => ["vtu"] | VTP => ["vtp"] | VTK => ["paraview-legacy"; "vtk"]
  | TEC => ["tecplot"; "tec"] | MED => ["med"; "salome"] | OBJ => ["obj"]
  | WRL => ["vrml"; "wrl"] | PNL => ["pnl"; "hams"]
  end%string.
(** The file extension of each format *)
Definition file_extension (f : fmt) : text := s
  match f with
  | MAR => "mar" | NEM => "nem" | GDF => "gdf" | INP => "inp" | DAT => "dat" | HST => "hst" | NAT => "nat" | MSH => "msh"
  | RAD => "rad" | STL => "stl" | VTU => "vtu" | VTP => "vtp" | VTK => "vtk" | TEC => "tec" | MED => "med" | OBJ => "obj"
  | WRL => "wrl" | PNL => "pnl"
  end%string.
(** The formats that the table says cannot be written, other than .nem and .obj *)
Definition read_only (f : fmt) : Prop := In f [INP; MSH; RAD; MED; WRL].

(** Letters *)
Definition small_letters : text := s "abcdefghijklmnopqrstuvwxyz".
Definition capitals : text := s "ABCDEFGHIJKLMNOPQRSTUVWXYZ".
Definition same_letter (c d : ascii) : Prop := c = d \/ In (c, d) (combine small_letters capitals) \/ In (d, c) (combine small_letters capitals).
Definition same_but_case (t u : text) : Prop := Forall2 same_letter t u.

(** A path is a directory, possibly none, and the name of a file. *)
Definition path (dir name : text) : Prop := ~ In "/"%char name /\ (dir = [] \/ exists d, dir = d ++ s "/").
(** [ext] is the extension of the file [p], and [base] what comes before: the extension begins at the last dot of the name of
    the file, unless only dots come before. *)
Definition extension (p base ext : text) : Prop :=
  p = base ++ ext /\ exists dir name, path dir name /\ p = dir ++ name /\
  ((exists stem e, base = dir ++ stem /\ ext = "."%char :: e /\ ~ In "."%char e /\ exists c, In c stem /\ c <> "."%char) \/
   (ext = [] /\ forall stem e, name = stem ++ "."%char :: e -> ~ In "."%char e -> forall c, In c stem -> c = "."%char)).
(** [u] is [t] with capitals for small letters. *)
Definition in_capitals (t u : text) : Prop := Forall2 (fun c d => In (c, d) (combine small_letters capitals) \/ c = d /\ ~ In c small_letters) t u.

(** ** Files that are written *)
(** The file in which a mesh is saved: Diodore's files get an extension in capitals. *)
Definition written_at (f : fmt) (name place : text) : Prop :=
  match f with
  | DAT => exists base ext cap, extension name base ext /\ in_capitals ext cap /\ place = base ++ cap
  | _ => place = name
  end.
(** What is put there, or the exception *)
Definition file_text (other_write : fmt -> list vertex -> list face -> res text) (date : text) (normal_text : vertex -> vertex -> vertex -> text)
    (f : fmt) (name : text) (vs : list vertex) (fs : list face) (r : res text) : Prop :=
  match f with
  | DAT => exists base ext cap, extension name base ext /\ in_capitals base cap /\ r = Ok (write_DAT date cap vs fs)
  | f => r = match f with
             | MAR => Ok (write_MAR vs fs) | NEM => Ok (write_NEM vs fs) | NAT => Ok (write_NAT vs fs) | PNL => Ok (write_PNL vs fs)
             | GDF => write_GDF date vs fs | STL => fst (write_STL normal_text vs fs) | HST => Ok (write_HST vs fs)
             | TEC => Ok (write_TEC name vs fs) | VTK => Ok (write_VTK date vs fs) | OBJ => Ok (write_OBJ date vs fs)
             | f => other_write f vs fs
             end
  end.
