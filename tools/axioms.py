"""Rewrite the section of DESIGN.md that lists what Print Assumptions says for each theorem.

Compile the model first (make in rocq/); the files Prop*.v are compiled again here."""
import glob, os, re, subprocess

root = os.path.join(os.path.dirname(os.path.abspath(__file__)), "..")
groups = {}
total = 0
for path in sorted(glob.glob(os.path.join(root, "rocq/theories/Prop*.v"))):
    asked = re.findall(r"^Print Assumptions (\w+)\.", open(path).read(), re.M)
    out = subprocess.run(["coqc", "-Q", "theories", "Verif", "theories/" + os.path.basename(path)],
                         cwd=os.path.join(root, "rocq"), capture_output=True, text=True, check=True).stdout
    answers = re.split(r"^(?=Closed under the global context|Axioms:)", out, flags=re.M)[1:]
    assert len(asked) == len(answers), (path, len(asked), len(answers))
    for theorem, answer in zip(asked, answers):
        axioms = tuple(sorted(re.findall(r"^([\w.]+)(?=\s*:|$)", answer.replace("Axioms:\n", "", 1), re.M)))
        if answer.startswith("Closed"):
            axioms = ()
        groups.setdefault(axioms, []).append(theorem)
        total += 1

lines = [f"{total} theorems.", ""]
for axioms, theorems in sorted(groups.items()):
    if axioms:
        lines.append("These rest on " + ", ".join(f"`{a}`" for a in axioms) + ":")
    else:
        lines.append("These are closed under the global context (no axioms):")
    lines += ["", ", ".join(theorems) + ".", ""]
path = os.path.join(root, "DESIGN.md")
text = open(path).read()
start, stop = "<!-- axioms -->\n", "<!-- end of axioms -->\n"
a, b = text.index(start) + len(start), text.index(stop)
open(path, "w").write(text[:a] + "\n".join(lines) + text[b:])
for axioms, theorems in groups.items():
    print(len(theorems), axioms)
