#!/usr/bin/env python3
"""writes MANIFEST.json"""
import json
C = []
def c(p, status, theorems, note=""):
    C.append({"property": p, "status": status, "theorems": theorems.split(), "note": note})
exec(open(__file__.replace("manifest.py", "claims.py")).read())
json.dump({"claims": C}, open(__file__.replace("tools/manifest.py", "MANIFEST.json"), "w"), indent=1)
