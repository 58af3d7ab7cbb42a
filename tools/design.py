"""Regenerates the last sections of DESIGN.md (below the marker) from the claims and the sources."""
import glob, json, os, re
ROOT = os.path.dirname(os.path.dirname(os.path.abspath(__file__)))
MARK = "<!-- generated below by tools/design.py -->"
design = os.path.join(ROOT, "DESIGN.md")
text = open(design).read().split(MARK)[0].rstrip() + "\n\n" + MARK + "\n\n"
claims = {c["property"]: c for c in json.load(open(os.path.join(ROOT, "MANIFEST.json")))["claims"]}
titles = {}
for line in open(os.path.join(ROOT, "properties.jsonl")):
    d = json.loads(line)
    titles[d["id"]] = d["title"]
text += "## 5. What came out\n\n"
n = lambda s: sum(1 for c in claims.values() if c["status"] == s)
text += "%d properties: %d proved, %d partial (most of these because the documented claim is false of the code: the theorem ending in `_refuted` gives the witness, and the other theorems say what does hold).\n\n" % (len(titles), n("proved"), n("partial"))
text += "| id | status | property | remarks |\n|---|---|---|---|\n"
for k in sorted(titles, key=lambda s: int(s[1:])):
    c = claims.get(k, {"status": "open", "note": ""})
    text += "| %s | %s | %s | %s |\n" % (k, c["status"], titles[k], c["note"].replace("|", "\\|"))
text += "\n## 6. Which parts of the code are modelled\n\n| model file | source files cited |\n|---|---|\n"
for f in sorted(glob.glob(os.path.join(ROOT, "rocq/theories/Model/*.v"))):
    head = re.search(r"\(\*\*(.*?)\*\)", open(f).read(), re.S).group(1)
    head = " ".join(head.split()).replace("|", "\\|")
    text += "| `%s` | %s |\n" % (os.path.basename(f), head)
text += "\nSource files of `crates/multicalc/src` that no model file names are not modelled, and neither is the crate `multicalc-robot-model`.\n"
open(design, "w").write(text)
