"""List every theory file in rocq/_CoqProject (the flags line is left as it is)."""
import glob, os
root = os.path.join(os.path.dirname(os.path.abspath(__file__)), "..", "rocq")
files = sorted(os.path.relpath(f, root) for f in glob.glob(os.path.join(root, "theories", "*.v")))
with open(os.path.join(root, "_CoqProject"), "w") as out:
    out.write("-Q theories Verif\n" + "".join(f + "\n" for f in files))
