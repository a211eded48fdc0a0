#!/usr/bin/env python3
"""usage: st.py Cnn status note   (edits tools/status.json, then regenerates MANIFEST.json)"""
import json, sys, os, subprocess
d = os.path.dirname(os.path.abspath(__file__))
p = d + "/status.json"
s = json.load(open(p))
a = sys.argv[1:]
for i in range(0, len(a), 3): s[a[i]] = [a[i+1], a[i+2]]
json.dump(dict(sorted(s.items(), key=lambda x: int(x[0][1:]))), open(p, "w"), indent=0)
subprocess.run([sys.executable, d + "/gen_manifest.py"])
