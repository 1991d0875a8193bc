(** The choice of a reader or a writer by a keyword (end of meshmagick/mmio.py), file names, and meshmagick/densities.py. *)
From Coq Require Import Ascii String List Arith NArith ZArith Bool.
From Verif Require Import M_base M_merge M_mesh M_text M_mmio M_regex M_files.
Import ListNotations.

(** One constructor for each pair of functions load_X, write_X *)
Inductive fmt := MAR | GDF | INP | DAT | HST | NAT | MSH | RAD | STL | VTU | VTP | VTK | TEC | MED | WRL | NEM | PNL | OBJ.

(** mmio.py:1822-1854 extension_dict: keyword, reader, writer *)
Definition extension_dict : list (text * (fmt * fmt)) :=
  [(s "mar", (MAR, MAR)); (s "nemoh", (MAR, MAR)); (s "wamit", (GDF, GDF)); (s "gdf", (GDF, GDF));
   (s "diodore-inp", (INP, INP)); (s "inp", (INP, INP)); (s "diodore-dat", (DAT, DAT));
   (s "hydrostar", (HST, HST)); (s "hst", (HST, HST)); (s "natural", (NAT, NAT)); (s "nat", (NAT, NAT));
   (s "gmsh", (MSH, MSH)); (s "msh", (MSH, MSH)); (s "rad", (RAD, RAD)); (s "radioss", (RAD, RAD));
   (s "stl", (STL, STL)); (s "vtu", (VTU, VTU)); (s "vtp", (VTP, VTP));
   (s "paraview-legacy", (VTK, VTK)); (s "vtk", (VTK, VTK)); (s "tecplot", (TEC, TEC)); (s "tec", (TEC, TEC));
   (s "med", (MED, MED)); (s "salome", (MED, MED)); (s "vrml", (WRL, WRL)); (s "wrl", (WRL, WRL));
   (s "nem", (NEM, NEM)); (s "nemoh_mesh", (NEM, NEM)); (s "pnl", (PNL, PNL)); (s "hams", (PNL, PNL));
   (s "obj", (OBJ, OBJ))].
(** d[k] of a dictionary with texts as keys *)
Fixpoint lookup {A} (k : text) (d : list (text * A)) : option A :=
  match d with
  | [] => None
  | (k', a) :: d' => if list_eq_dec ascii_dec k k' then Some a else lookup k d'
  end.
(** mmio.py:1819-1820 *)
Definition know_extension (k : text) : bool := match lookup k extension_dict with Some _ => true | None => false end.

(** The files that exist, by name, with their text. There are no directories and no links: two names are two files. *)
Definition disk := text -> option text.
Definition put (name t : text) (d : disk) : disk := fun n => if list_eq_dec ascii_dec n name then Some t else d n.

(** ** File names *)
(** str.rfind of a character: the position of the last one *)
Fixpoint rfind (c : ascii) (t : text) : option nat :=
  match t with
  | [] => None
  | x :: t' => match rfind c t' with Some i => Some (S i) | None => if Ascii.eqb x c then Some 0 else None end
  end.
(** os.path.splitext on a POSIX system (genericpath._splitext): the extension begins at the last dot, when it is in the
    last component of the path and something else than dots comes before it there. *)
Definition splitext (p : text) : text * text :=
  match rfind "." p with
  | None => (p, [])
  | Some dot =>
      let start := match rfind "/" p with Some i => S i | None => 0 end in
      if (start <=? dot) && existsb (fun c => negb (Ascii.eqb c ".")) (firstn (dot - start) (skipn start p))
      then (firstn dot p, skipn dot p)
      else (p, [])
  end.
(** str.lower, str.upper, for ASCII letters *)
Definition lower_char (c : ascii) : ascii :=
  let n := N_of_ascii c in if ((65 <=? n) && (n <=? 90))%N then ascii_of_N (n + 32) else c.
Definition upper_char (c : ascii) : ascii :=
  let n := N_of_ascii c in if ((97 <=? n) && (n <=? 122))%N then ascii_of_N (n - 32) else c.
Definition lower (t : text) : text := map lower_char t.
Definition upper (t : text) : text := map upper_char t.

(** ** Readers and writers *)
Section Formats.
  Variable dbl : N -> Z -> N * positive.
  (** The readers and writers that are not modelled: any functions. [other_load MSH] is load_MSH41. *)
  Variable other_load : fmt -> text -> res (array num * array Z).
  Variable other_write : fmt -> list vertex -> list face -> res text.
  (** The date written in GDF, DAT, VTK and OBJ files, the text of the normals in STL files *)
  Variable date : text.
  Variable normal_text : vertex -> vertex -> vertex -> text.
  (** What a writer that fails leaves in the file: any text *)
  Variable unfinished : fmt -> list vertex -> list face -> text.

  Definition reader (f : fmt) (t : text) : res (array num * array Z) :=
    match f with
    | MAR => load_MAR dbl t | NEM => load_NEM dbl t | NAT => load_NAT dbl t | GDF => load_GDF dbl t | PNL => load_PNL dbl t
    | HST => load_HST dbl t | TEC => load_TEC dbl t | DAT => load_DAT dbl t | RAD => load_RAD dbl t
    | MSH => load_MSH dbl (other_load MSH) t
    | INP | STL | VTU | VTP | VTK | MED | WRL | OBJ => other_load f t
    end.
  (** mmio.py:1698-1699, 1763-1776: these writers raise at once *)
  Definition not_written (f : fmt) : bool := match f with RAD | INP | MSH | MED | WRL => true | _ => false end.
  (** mmio.py:1188-1189: write_DAT puts the extension in capitals *)
  Definition target (f : fmt) (name : text) : text :=
    match f with DAT => let (root, ext) := splitext name in root ++ upper ext | _ => name end.
  Definition writer (f : fmt) (name : text) (vs : list vertex) (fs : list face) : res text :=
    match f with
    | MAR => Ok (write_MAR vs fs) | NEM => Ok (write_NEM vs fs) | NAT => Ok (write_NAT vs fs) | GDF => write_GDF date vs fs
    | PNL => Ok (write_PNL vs fs) | STL => fst (write_STL normal_text vs fs)
    | HST => Ok (write_HST vs fs) | TEC => Ok (write_TEC name vs fs) | DAT => Ok (write_DAT date (upper (fst (splitext name))) vs fs)
    | VTK => Ok (write_VTK date vs fs) | OBJ => Ok (write_OBJ date vs fs)
    | VTU | VTP | RAD | INP | MSH | MED | WRL => other_write f vs fs
    end.

  (** mmio.py:17-50 _check_file, load_mesh *)
  Definition load_mesh (d : disk) (name k : text) : res (array num * array Z) :=
    match d name with
    | None => Raise IOError
    | Some t => match lookup k extension_dict with
                | None => Raise IOError
                | Some (r, _) => reader r t
                end
    end.
  (** mmio.py:1146-1167 write_mesh. Opening the file always succeeds. *)
  Definition write_mesh (name : text) (vs : list vertex) (fs : list face) (k : text) (d : disk) : res unit * disk :=
    match lookup k extension_dict with
    | None => (Raise IOError, d)
    | Some (_, w) =>
        if not_written w then (Raise NotImplementedError, d) else
        match writer w name vs fs with
        | Ok t => (Ok tt, put (target w name) t d)
        | Raise e => (Raise e, put (target w name) (unfinished w vs fs) d)
        end
    end.
End Formats.

(** ** densities.py:7-25 _DENSITIES. The decimal literals are taken exactly. *)
Definition densities : list (text * num) :=
  [(s "CONCRETE", Num false 2300 1); (s "REINFORCED_CONCRETE", Num false 2400 1); (s "FRESH_WATER", Num false 1000 1);
   (s "SALT_WATER", Num false 1025 1); (s "SAND", Num false 1600 1); (s "STEEL", Num false 7850 1);
   (s "ALUMINUM", Num false 2700 1); (s "LEAD", Num false 11350 1); (s "TITANIUM", Num false 4500 1);
   (s "POLYSTYRENE", Num false 1050 1); (s "GASOLINE", Num false 750 1); (s "DIESEL_FUEL", Num false 850 1);
   (s "ETHANOL", Num false 789 1); (s "AIR_20DEGC", Num false 1204 1000); (s "BUTANE", Num false 27 10);
   (s "PROPANE", Num false 201 100); (s "HYDROGEN_-252DEGC", Num false 70 1); (s "NITROGEN_-195DEGC", Num false 810 1)].
(** densities.py:28-46 get_density, of a text. Only ASCII letters change case: the other characters whose upper case is
    made of ASCII letters (as the long s) are not in the model of text. *)
Definition get_density (medium : text) : res num :=
  match lookup (upper medium) densities with Some x => Ok x | None => Raise KeyError end.
(** densities.py:49-57 list_medium *)
Definition list_medium : list text := map fst densities.
